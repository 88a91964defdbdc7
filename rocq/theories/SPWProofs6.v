(** Lemmas for C79, C81: the rounds. *)
From Coq Require Import QArith.
From Verif Require Import Base SparseModel SparseProofs CtrProofs AuxModel AuxSpec AuxProofs CDataModel CDataSpec CDataProofs CDataProps CMapProps SPWModel SPWSpec SPWProofs SPWProofs2 SPWProofs3 SPWProofs4 SPWProofs5.
Local Open Scope nat_scope.

Lemma connected_iff E (S T : nat -> Prop) : (forall x, S x <-> T x) -> connected E S -> connected E T.
Proof. intros H C a b Ha Hb. apply (path_sub E S); [intros; now apply H|]. apply C; now apply H. Qed.
Lemma comparable_refl P a : order_ok P -> leq P a a = true. Proof. intros H. apply H. Qed.

(** members of a class of two *)
Lemma pair_comparable P veq n N out NC m : order_ok P -> truly_par P = true -> pair_map n N out NC m -> (forall v w, N v w -> may_match P veq v w) ->
  forall u w c, target m u = Some c -> target m w = Some c -> leq P (nth u veq 0) (nth w veq 0) = true \/ leq P (nth w veq 0) (nth u veq 0) = true.
Proof.
  intros (O1 & O2 & O3 & O4) HT (L & I & _ & PM) HN u w c Tu Tw. assert (Hc : c < NC) by (apply (target_lt NC) in Tu; tauto).
  destruct (PM c Hc) as (v & ow & Hv & P1 & P2). apply P1 in Tu, Tw.
  assert (X : forall y, ow = Some y -> leq P (nth v veq 0) (nth y veq 0) = true \/ leq P (nth y veq 0) (nth v veq 0) = true).
  { intros y Hy. destruct (HN _ _ (P2 y Hy) HT) as [E|[E|[E|E]]]; auto; rewrite E; auto. }
  destruct Tu as [->|Tu], Tw as [->|Tw]; auto.
  - destruct (X u Tu); auto.
  - assert (u = w) by congruence. subst. auto.
Qed.

Section Eq.
  Variable P : par_info.
  (** conc_eq *)
  Lemma conc_eq_ok eq n1 n2 m2 rows2 : length eq = n1 -> length m2 = n1 -> map_into n2 m2 -> rows_of m2 n2 rows2 -> (forall c, c < n2 -> exists v, target m2 v = Some c) ->
    exists eq', conc_eq (leq P) eq rows2 = Ret eq' /\ length eq' = n2 /\
      (order_ok P -> (forall u w c, target m2 u = Some c -> target m2 w = Some c -> leq P (nth u eq 0) (nth w eq 0) = true \/ leq P (nth w eq 0) (nth u eq 0) = true) ->
       forall c, c < n2 -> (forall u, target m2 u = Some c -> leq P (nth u eq 0) (nth c eq' 0) = true) /\ exists v, target m2 v = Some c /\ nth v eq 0 = nth c eq' 0).
  Proof.
    intros L1 L2 I2 (RL & RR) SU. unfold conc_eq, mapM.
    set (g := fun agg : list nat => fold_left (fun e v => if leq P e (nth v eq 0) then nth v eq 0 else e) (tl agg) (nth (nth 0 agg 0) eq 0)).
    assert (IN : forall agg, In agg rows2 -> exists c, c < n2 /\ agg = nth c rows2 []).
    { intros agg H. apply In_nth with (d := []) in H as (c & Hc & E). exists c. split; [lia|auto]. }
    assert (LT : forall c v, c < n2 -> In v (nth c rows2 []) -> v < length eq).
    { intros c v Hc Hv. apply RR in Hv; auto. apply (target_lt n2) in Hv; auto. lia. }
    exists (map g rows2). split.
    { apply mapM_ok. intros agg Ha. destruct (IN agg Ha) as (c & Hc & ->). destruct (SU c Hc) as (v & Tv). apply RR in Tv; auto.
      pose proof (LT c) as LT0. remember (nth c rows2 []) as agg eqn:EA. destruct agg as [|a0 agg]; [destruct Tv|]. rewrite (rd_ok (a0 :: agg) 0 0) by (cbn; lia). cbn [bind nth tl].
      rewrite (rd_ok eq a0 0) by (apply LT0; auto; now left). cbn [bind]. unfold g. cbn [tl nth].
      assert (LT1 : forall v, In v agg -> v < length eq) by (intros; apply LT0; auto; now right). clear - LT1. generalize (nth a0 eq 0) as e.
      induction agg as [|b agg IH]; intros e; cbn [foldM fold_left]; auto. rewrite (rd_ok eq b 0) by (apply LT1; now left). cbn [bind]. apply IH. intros; apply LT1; now right. }
    split; [now rewrite map_length|]. intros (O1 & O2 & O3 & O4) CMP c Hc.
    assert (Eg : nth c (map g rows2) 0 = g (nth c rows2 [])).
    { rewrite (nth_indep _ 0 (g [])) by (rewrite map_length; lia). apply (map_nth g). }
    rewrite Eg. destruct (SU c Hc) as (v0 & Tv0). apply RR in Tv0; auto.
    assert (TG : forall v, In v (nth c rows2 []) <-> target m2 v = Some c) by (intros; apply RR; auto).
    assert (CMP2 : forall u w, In u (nth c rows2 []) -> In w (nth c rows2 []) -> leq P (nth u eq 0) (nth w eq 0) = true \/ leq P (nth w eq 0) (nth u eq 0) = true).
    { intros u w Hu Hw. apply TG in Hu, Hw. eauto. }
    assert (RES : (forall u, In u (nth c rows2 []) -> leq P (nth u eq 0) (g (nth c rows2 [])) = true) /\ exists v, In v (nth c rows2 []) /\ nth v eq 0 = g (nth c rows2 [])).
    { clear - Tv0 CMP2 O1 O2. remember (nth c rows2 []) as agg eqn:EA. destruct agg as [|a0 agg]; [destruct Tv0|]. unfold g. cbn [tl nth].
      assert (G : forall l a, In a (a0 :: agg) -> (forall x, In x l -> In x (a0 :: agg)) ->
        let r := fold_left (fun e v => if leq P e (nth v eq 0) then nth v eq 0 else e) l (nth a eq 0) in
        leq P (nth a eq 0) r = true /\ (forall u, In u l -> leq P (nth u eq 0) r = true) /\ exists v, In v (a0 :: agg) /\ nth v eq 0 = r).
      { induction l as [|b l IH]; intros a Ha Hl; cbn zeta; cbn [fold_left].
        - split; auto. split; [intros u []|]. eauto.
        - assert (Hb : In b (a0 :: agg)) by (apply Hl; now left). assert (Hl2 : forall x, In x l -> In x (a0 :: agg)) by (intros; apply Hl; now right).
          destruct (leq P (nth a eq 0) (nth b eq 0)) eqn:Eq.
          + destruct (IH b Hb Hl2) as (A & B & C). split; [eapply O2; eauto|]. split; auto. intros u [<-|Hu]; auto.
          + destruct (IH a Ha Hl2) as (A & B & C). split; auto. split; auto. intros u [<-|Hu]; auto. destruct (CMP2 a b Ha Hb) as [X|X]; [congruence|]. eapply O2; eauto. }
      destruct (G agg a0 ltac:(now left) ltac:(intros; now right)) as (A & B & C). split; auto. intros u [<-|Hu]; auto. }
    destruct RES as [RES1 (v & Hv & Ev)]. split; [intros u Hu; apply RES1, TG; auto|]. exists v. split; [now apply TG|auto].
  Qed.

  (** first_v2eq *)
  Lemma first_v2eq_ok NV classes veq NC m : classes_match NV classes veq -> length m = NV -> map_into NC m ->
    exists eq, first_v2eq (leq P) classes NC m = Ret eq /\ length eq = NC /\
      (order_ok P -> (forall u w c, target m u = Some c -> target m w = Some c -> leq P (nth u veq 0) (nth w veq 0) = true \/ leq P (nth w veq 0) (nth u veq 0) = true) ->
       (forall c, c < NC -> exists v, target m v = Some c) ->
       forall c, c < NC -> (forall u, target m u = Some c -> leq P (nth u veq 0) (nth c eq 0) = true) /\ exists v, target m v = Some c /\ nth v veq 0 = nth c eq 0).
  Proof.
    intros (CL & C1 & C2 & C3) L I. unfold first_v2eq. set (items := flat_map _ (numbered classes)).
    assert (IN : forall q v, In (q, v) items <-> 0 < q /\ v < NV /\ nth v veq 0 = q).
    { intros q v. unfold items. rewrite in_flat_map. split.
      - intros ((k & vs) & Hk & Hi). cbn [fst snd] in Hi. destruct (Nat.eqb_spec k 0); [destruct Hi|]. apply in_map_iff in Hi as (v' & [= -> ->] & Hv).
        apply in_numbered_lt in Hk as [Hk E]. apply nth_error_nth with (d := []) in E. subst vs. apply C2 in Hv. split; [lia|auto].
      - intros (H0 & Hv & E). exists (q, nth q classes []). specialize (C1 v Hv). rewrite E in C1. split.
        + apply (in_numbered _ _ _ []). split; auto. destruct (Nat.lt_ge_cases q (length classes)); auto. rewrite nth_overflow in C1 by auto. destruct C1.
        + cbn [fst snd]. destruct (Nat.eqb_spec q 0); [lia|]. now apply in_map. }
    match goal with |- context [foldM ?F0 _ _] => set (F := F0) end.
    set (CMP := forall u w c, target m u = Some c -> target m w = Some c -> leq P (nth u veq 0) (nth w veq 0) = true \/ leq P (nth w veq 0) (nth u veq 0) = true).
    set (good := fun (dn : list (nat * nat)) (eq : list nat) => length eq = NC /\
      (order_ok P -> CMP -> forall c, c < NC ->
         (nth c eq 0 = 0 /\ forall q v, In (q, v) dn -> target m v <> Some c) \/
         (exists v, In (nth c eq 0, v) dn /\ target m v = Some c /\ forall q' v', In (q', v') dn -> target m v' = Some c -> leq P q' (nth c eq 0) = true))).
    assert (G : forall l dn eq, (forall p, In p (dn ++ l) -> In p items) -> good dn eq -> exists eq', foldM F l eq = Ret eq' /\ good (dn ++ l) eq').
    { induction l as [|(q & v) l IH]; intros dn eq HI HG; cbn [foldM].
      - exists eq. rewrite app_nil_r. auto.
      - assert (Hqv : In (q, v) items) by (apply HI, in_app_iff; right; now left). apply IN in Hqv as (Hq & Hv & Eq).
        assert (HI2 : forall p, In p ((dn ++ [(q, v)]) ++ l) -> In p items) by (intros p; rewrite <- app_assoc; apply HI).
        unfold F at 1. cbn [fst snd]. replace (dn ++ (q, v) :: l) with ((dn ++ [(q, v)]) ++ l) by (now rewrite <- app_assoc).
        destruct HG as [GL GG].
        destruct (target_nth NC m v I ltac:(lia)) as [(Ea & Ta)|(A & Ea & Ta & HA)]; rewrite (rd_nth_error _ _ _ Ea); cbn [bind].
        + rewrite Z.eqb_refl. cbn [bind]. apply IH; auto. split; auto. intros HO HC c Hc. destruct (GG HO HC c Hc) as [(X1 & X2)|(u & X1 & X2 & X3)].
          * left. split; auto. intros q' v' Hi. apply in_app_iff in Hi as [Hi|[[= <- <-]|[]]]; [eauto|congruence].
          * right. exists u. split; [apply in_app_iff; auto|]. split; auto. intros q' v' Hi T. apply in_app_iff in Hi as [Hi|[[= <- <-]|[]]]; [eauto|congruence].
        + destruct (Z.eqb_spec (Z.of_nat A) (-1)); [lia|]. destruct (Z.ltb_spec (Z.of_nat A) 0); [lia|]. rewrite Nat2Z.id. rewrite (rd_ok eq A 0) by lia. cbn [bind].
          rewrite wr_ok by lia. cbn [bind]. apply IH; auto. split; [now rewrite upd_length|]. intros HO HC c Hc. destruct (Nat.eq_dec c A) as [->|NA].
          * rewrite nth_upd_eq by lia. right. destruct (GG HO HC A HA) as [(X1 & X2)|(u & X1 & X2 & X3)].
            -- rewrite X1. cbn [Nat.eqb]. exists v. split; [apply in_app_iff; right; now left|]. split; auto. intros q' v' Hi T.
               apply in_app_iff in Hi as [Hi|[[= <- <-]|[]]]; [exfalso; eapply X2; eauto|apply HO].
            -- assert (HU : In (nth A eq 0, u) items) by (apply HI, in_app_iff; auto). apply IN in HU as (U0 & U1 & U2).
               destruct (Nat.eqb_spec (nth A eq 0) 0); [lia|]. destruct (leq P q (nth A eq 0)) eqn:Lq.
               ++ exists u. split; [apply in_app_iff; auto|]. split; auto. intros q' v' Hi T. apply in_app_iff in Hi as [Hi|[[= <- <-]|[]]]; [eauto|auto].
               ++ exists v. split; [apply in_app_iff; right; now left|]. split; auto. intros q' v' Hi T. destruct HO as (O1 & O2 & O3 & O4).
                  apply in_app_iff in Hi as [Hi|[[= <- <-]|[]]]; [|auto]. apply (O2 _ (nth A eq 0)); [eauto|].
                  destruct (HC u v A X2 Ta) as [Y|Y]; rewrite U2, Eq in Y; congruence.
          * rewrite nth_upd_neq by auto. destruct (GG HO HC c Hc) as [(X1 & X2)|(u & X1 & X2 & X3)].
            -- left. split; auto. intros q' v' Hi. apply in_app_iff in Hi as [Hi|[[= <- <-]|[]]]; [eauto|congruence].
            -- right. exists u. split; [apply in_app_iff; auto|]. split; auto. intros q' v' Hi T. apply in_app_iff in Hi as [Hi|[[= <- <-]|[]]]; [eauto|congruence]. }
    destruct (G items [] (repeat 0 NC)) as (eq & E & GL & GG).
    { intros p; auto. }
    { split; [apply repeat_length|]. intros _ _ c Hc. left. rewrite nth_repeat. split; auto. }
    exists eq. split; auto. split; auto. intros HO HC SU c Hc. assert (MV : forall u cc, target m u = Some cc -> u < NV) by (intros u cc T; apply (target_lt NC) in T; auto; lia).
    cbn [app] in GG. destruct (GG HO HC c Hc) as [(X1 & X2)|(v & X1 & X2 & X3)].
    - assert (Z0 : forall u, target m u = Some c -> nth u veq 0 = 0).
      { intros u Tu. destruct (Nat.eq_dec (nth u veq 0) 0) as [|N]; auto. exfalso. apply (X2 (nth u veq 0) u); auto. apply IN. split; [lia|]. split; eauto. }
      rewrite X1. split; [intros u Tu; rewrite (Z0 u Tu); apply HO|]. destruct (SU c Hc) as (v & Tv). exists v. auto.
    - apply IN in X1 as (Y0 & Y1 & Y2). split; [|eauto]. intros u Tu. destruct (Nat.eq_dec (nth u veq 0) 0) as [->|N]; [apply HO|]. apply (X3 _ u); auto.
      apply IN. split; [lia|]. split; eauto.
  Qed.
End Eq.
