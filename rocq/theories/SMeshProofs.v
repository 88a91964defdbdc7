(** LoopBlocks *)
From Verif Require Import Base ArraysModel ArraysProofs ArraysProps SMapModel SMapProofs SMapProofs8 SMeshModel.
Import ListNotations.

Definition has_facet (emap loop : list Z) (f : Z) : Prop := f <> (-1)%Z /\ exists c, In c loop /\ nth (Z.to_nat (Z.abs c - 1)) emap (-1)%Z = f.
Definition codes_ok (emap loop : list Z) : Prop := forall c, In c loop -> (1 <= Z.abs c <= Z.of_nat (length emap))%Z.

Lemma facet_entry_eq emap uc c : StronglySorted Z.lt uc -> (1 <= Z.abs c <= Z.of_nat (length emap))%Z ->
  exists uc', facet_entry emap uc c = Ret uc' /\ StronglySorted Z.lt uc' /\
   forall f, In f uc' <-> In f uc \/ (f <> -1 /\ f = nth (Z.to_nat (Z.abs c - 1)) emap (-1))%Z.
Proof.
  intros S H. unfold facet_entry, rdz. destruct (Z.ltb_spec (Z.abs c - 1) 0); [lia|]. rewrite (rd_ok _ _ (-1)%Z) by lia. cbn [bind].
  set (x := nth (Z.to_nat (Z.abs c - 1)) emap (-1)%Z). destruct (Z.eqb_spec x (-1)) as [E|E].
  { exists uc. split; [reflexivity|]. split; auto. intros f. split; [auto|]. intros [A|[A B]]; auto. congruence. }
  destruct (C02_insert_nodups x uc S) as [A B].
  assert (EQ : forall b l, insert_into_sorted_array_nodups x uc = Ret (b, l) -> 
     (o <- merge_pos_in_sorted_array x uc ;; match o with None => Err OutOfBounds | Some pos => same <- (if (0 <? pos)%nat then y <- rd uc (pos - 1) ;; Ret (y =? x)%Z else Ret false) ;; if same : bool then Ret uc else Ret (array_insert pos x uc) end) = Ret l).
  { intros b l. unfold insert_into_sorted_array_nodups. destruct (C02_merge_pos x uc (lt_le _ S)) as (p & -> & _). cbn [bind]. destruct (0 <? p)%nat.
    - destruct (rd uc (p - 1)); cbn [bind]; [|discriminate]. destruct (_ =? _)%Z; intros Q; injection Q as <- <-; reflexivity.
    - cbn [bind]. intros Q; injection Q as <- <-; reflexivity. }
  destruct (in_dec Z.eq_dec x uc) as [I|I].
  - exists uc. split; [apply (EQ false), A, I|]. split; auto. intros f. split; auto. intros [Q|[_ ->]]; auto.
  - destruct (B I) as (l & E1 & E2 & E3). exists l. split; [apply (EQ true), E1|]. split; auto. intros f. split.
    + intros Q. apply (Permutation_in _ E3) in Q. destruct Q as [<-|Q]; auto.
    + intros Q. apply (Permutation_in _ (Permutation_sym E3)). destruct Q as [Q|[_ ->]]; cbn; auto.
Qed.
Lemma facets_ok emap loop : codes_ok emap loop -> exists uc, facets emap loop = Ret uc /\ StronglySorted Z.lt uc /\ forall f, In f uc <-> has_facet emap loop f.
Proof.
  intros H. unfold facets.
  assert (G : forall l uc, codes_ok emap l -> StronglySorted Z.lt uc -> exists uc', foldM (facet_entry emap) l uc = Ret uc' /\ StronglySorted Z.lt uc' /\ forall f, In f uc' <-> In f uc \/ has_facet emap l f).
  { clear. induction l as [|c l IH]; intros uc H Sr.
    - exists uc. split; [reflexivity|]. split; auto. intros f. split; auto. intros [Q|[_ (c & [] & _)]]; auto.
    - destruct (facet_entry_eq emap uc c Sr) as (u1 & E & S1 & F1). { apply H. cbn; auto. }
      cbn [foldM]. rewrite E. cbn [bind]. destruct (IH u1) as (u2 & E2 & S2 & F2); auto. { intros d D. apply H. cbn; auto. }
      exists u2. split; auto. split; auto. intros f. rewrite F2, F1. unfold has_facet. split.
      + intros [[Q|[Q1 Q2]]|[Q1 (d & Q2 & Q3)]]; auto; right; split; auto; [exists c|exists d]; cbn; auto.
      + intros [Q|[Q1 (d & [<-|Q2] & Q3)]]; auto. right. split; auto. exists d; auto. }
  destruct (G loop [] H) as (u & E & S1 & F); [constructor|]. exists u. split; auto. split; auto. intros f. rewrite F. cbn [In]. tauto.
Qed.

Lemma tc_add_in t b x : (b < length t)%nat -> tc_add t b x = upd t b (nth b t [] ++ [x]).
Proof. intros H. unfold tc_add. replace (S b - length t)%nat with 0%nat by lia. cbn [repeat]. rewrite app_nil_r. reflexivity. Qed.
Lemma tc_add_new t x : tc_add t (length t) x = t ++ [[x]].
Proof.
  unfold tc_add. replace (S (length t) - length t)%nat with 1%nat by lia. cbn [repeat]. rewrite app_nth2 by lia. rewrite Nat.sub_diag. cbn [nth app].
  induction t as [|y t IH]; [reflexivity|]. cbn [length app upd]. f_equal. exact IH.
Qed.
Lemma upd_map_nth {A B} (f g : A -> B) : forall (l : list A) i a, nth_error l i = Some a -> (forall j b, nth_error l j = Some b -> j <> i -> f b = g b) -> upd (map f l) i (g a) = map g l.
Proof.
  induction l as [|y l IH]; intros i a H E; destruct i as [|i]; try discriminate; cbn [map upd].
  - injection H as ->. f_equal. apply map_ext_in. intros b Hb. apply In_nth_error in Hb. destruct Hb as [j Hj]. apply (E (S j)); auto.
  - f_equal; [apply (E 0%nat); auto|]. apply IH; auto. intros j b Hb NE. apply (E (S j)); auto.
Qed.

Section Blocks.
  Variable emap : list Z.
  Variable nce : nat.
  Variable loops : list (list Z).
  Hypothesis Hloops : forall l, In l loops -> codes_ok emap l.
  Hypothesis Hemap : forall f, In f emap -> (-1 <= f < Z.of_nat nce)%Z.
  Definition F (l : nat) : list Z := match facets emap (nth l loops []) with Ret u => u | _ => [] end.
  Lemma F_ok l : (l < length loops)%nat -> facets emap (nth l loops []) = Ret (F l) /\ NoDup (F l) /\ (forall f, In f (F l) <-> has_facet emap (nth l loops []) f) /\ forall f, In f (F l) -> (0 <= f < Z.of_nat nce)%Z.
  Proof.
    intros H. destruct (facets_ok emap (nth l loops [])) as (u & E & S1 & G). { apply Hloops, nth_In; auto. }
    unfold F. rewrite E. split; auto. split; [apply lt_NoDup; auto|]. split; [exact G|]. intros f I. apply G in I. destruct I as [NE (c & Ic & X)].
    pose proof (Hloops _ (nth_In _ [] H) c Ic) as R. assert (In f emap) by (rewrite <- X; apply nth_In; lia). apply Hemap in H0. lia.
  Qed.
  (** the rows after loops 0..m-1 and the facets u of loop m *)
  Definition brow (m : nat) (u : list Z) (x : Z + nat) : list nat :=
    match x with inl f => filter (fun l => mem f (F l)) (seq 0 m) ++ (if mem f u then [m] else []) | inr l => [l] end.
  Record binv (m : nat) (u : list Z) (st : bstate) (lab : list (Z + nat)) : Prop := mkBI {
    bi_cnt : fst (fst st) = length lab;
    bi_len : length (snd (fst st)) = nce;
    bi_tab : snd st = map (brow m u) lab;
    bi_nd : NoDup lab;
    bi_at : forall i f, nth_error lab i = Some (inl f) -> (0 <= f < Z.of_nat nce)%Z /\ nth (Z.to_nat f) (snd (fst st)) (-1)%Z = Z.of_nat i;
    bi_no : forall f, (0 <= f < Z.of_nat nce)%Z -> ~ In (inl f) lab -> nth (Z.to_nat f) (snd (fst st)) (-1)%Z = (-1)%Z;
    bi_in : forall f, In (inl f) lab <-> (exists l, (l < m)%nat /\ In f (F l)) \/ In f u;
    bi_lone : forall l, In (inr l) lab <-> (l < m)%nat /\ F l = []
  }.
  Lemma block_facet_ok m u f st lab : binv m u st lab -> (0 <= f < Z.of_nat nce)%Z -> ~ In f u -> exists st' lab', block_facet m st f = Ret st' /\ binv m (u ++ [f]) st' lab'.
  Proof.
    intros [B1 B2 B3 B4 B5 B6 B7 B8] Hf Nf. destruct st as [[cnt c2b] t]. cbn [fst snd] in *. unfold block_facet, rdz. destruct (Z.ltb_spec f 0); [lia|]. rewrite (rd_ok c2b _ (-1)%Z) by lia. cbn [bind].
    assert (MU : forall g, mem g (u ++ [f]) = mem g u || (g =? f)%Z). { intros g. unfold mem. rewrite existsb_app. cbn [existsb]. rewrite orb_false_r. reflexivity. }
    assert (OTH : forall g, g <> f -> brow m u (inl g) = brow m (u ++ [f]) (inl g)). { intros g NE. unfold brow. rewrite MU. destruct (Z.eqb_spec g f); [contradiction|]. rewrite orb_false_r. reflexivity. }
    assert (Mf : mem f u = false) by (apply mem_not; auto).
    assert (DEC : {In (inl f) lab} + {~ In (inl f) lab}) by (apply in_dec; decide equality; [apply Z.eq_dec|apply Nat.eq_dec]).
    destruct DEC as [I|I].
    - destruct (In_nth_error _ _ I) as [i Hi]. destruct (B5 _ _ Hi) as [_ E]. rewrite E. destruct (Z.eqb_spec (Z.of_nat i) (-1)); [lia|]. destruct (Z.ltb_spec (Z.of_nat i) 0); [lia|]. rewrite Nat2Z.id.
      assert (Li : (i < length lab)%nat) by (apply nth_error_Some; congruence).
      exists (cnt, c2b, tc_add t i m), lab. split; [reflexivity|]. constructor; cbn [fst snd]; auto.
      + rewrite tc_add_in by (rewrite B3, map_length; auto). rewrite B3. rewrite (nth_indep _ [] (brow m u (inl 0%Z))) by (rewrite map_length; auto). rewrite (map_nth (brow m u)). rewrite (nth_error_nth _ _ _ Hi).
        replace (brow m u (inl f) ++ [m]) with (brow m (u ++ [f]) (inl f)).
        * apply upd_map_nth; auto. intros j b Hb NE. destruct b as [g|g]; [|reflexivity]. apply OTH. intros ->. apply NE. eapply NoDup_nth_error; eauto; [apply nth_error_Some; congruence|congruence].
        * unfold brow. rewrite MU, Z.eqb_refl, orb_true_r, Mf, app_nil_r. reflexivity.
      + intros g. rewrite B7, in_app_iff. cbn [In]. split; [intros [Q|Q]; auto|]. intros [Q|[Q|[<-|[]]]]; auto. apply B7; auto.
    - rewrite B6 by auto. cbn [Z.eqb]. rewrite wr_ok by lia. cbn [bind].
      eexists _, (lab ++ [inl f]). split; [reflexivity|]. constructor; cbn [fst snd].
      + rewrite app_length. cbn. lia.
      + rewrite upd_length. auto.
      + replace cnt with (length t) by (rewrite B3, map_length; auto). rewrite tc_add_new, B3, map_app. f_equal.
        * apply map_ext_in. intros [g|g] Ig; [|reflexivity]. apply OTH. intros ->. contradiction.
        * cbn [map]. f_equal. unfold brow. rewrite MU, Z.eqb_refl, orb_true_r.
          replace (filter (fun l => mem f (F l)) (seq 0 m)) with (@nil nat); [reflexivity|]. symmetry.
          destruct (filter (fun l => mem f (F l)) (seq 0 m)) as [|l ls] eqn:Q; auto. exfalso. apply I, B7. left. exists l. assert (In l (filter (fun l => mem f (F l)) (seq 0 m))) as X by (rewrite Q; cbn; auto). apply filter_In in X. destruct X as [X1 X2]. apply in_seq in X1. apply mem_In in X2. split; [lia|auto].
      + assert (NN : forall (l : list (Z + nat)) x, NoDup l -> ~ In x l -> NoDup (l ++ [x])).
        { clear. induction l as [|y l IH]; intros x N I; cbn [app]; [constructor; auto; constructor|]. inversion N; subst. constructor; [|apply IH; auto; intros Q; apply I; cbn; auto]. rewrite in_app_iff. cbn. intros [Q|[->|[]]]; auto. apply I; cbn; auto. }
        apply NN; auto.
      + intros i g Hi. destruct (Nat.lt_ge_cases i (length lab)) as [L|L].
        * rewrite nth_error_app1 in Hi by auto. destruct (B5 _ _ Hi) as [X Y]. split; auto. rewrite nth_upd_neq; auto. intros Q. apply I. apply nth_error_In in Hi. replace f with g by lia. auto.
        * rewrite nth_error_app2 in Hi by auto. destruct (i - length lab)%nat as [|j] eqn:D; [|destruct j; discriminate]. cbn in Hi. injection Hi as <-. split; auto. rewrite nth_upd_eq by lia. rewrite B1. f_equal. lia.
      + intros g Hg NI. rewrite in_app_iff in NI. rewrite nth_upd_neq; [apply B6; auto|]. intros Q. apply NI. right. left. f_equal. lia.
      + intros g. rewrite !in_app_iff, B7. cbn [In]. split; [intros [[Q|Q]|[Q|[]]]; auto; injection Q; auto|]. intros [Q|[Q|[<-|[]]]]; auto.
      + intros l. rewrite in_app_iff, B8. cbn [In]. split; [intros [Q|[Q|[]]]; auto; discriminate|auto].
  Qed.
  Lemma block_facets_ok m : forall us u st lab, binv m u st lab -> (forall f, In f us -> (0 <= f < Z.of_nat nce)%Z) -> NoDup (u ++ us) -> exists st' lab', foldM (block_facet m) us st = Ret st' /\ binv m (u ++ us) st' lab'.
  Proof.
    induction us as [|f us IH]; intros u st lab B H N; [exists st, lab; rewrite app_nil_r; split; [reflexivity|exact B]|].
    destruct (block_facet_ok m u f st lab B) as (s1 & lab1 & E & B1). { apply H; cbn; auto. } { apply NoDup_remove_2 in N. rewrite in_app_iff in N. tauto. }
    cbn [foldM]. rewrite E. cbn [bind]. destruct (IH (u ++ [f]) s1 lab1 B1) as (s2 & lab2 & E2 & B2). { intros; apply H; cbn; auto. } { rewrite <- app_assoc. exact N. }
    exists s2, lab2. split; auto. rewrite <- app_assoc in B2. exact B2.
  Qed.
  Lemma binv_next m st lab : binv m (F m) st lab -> F m <> [] -> binv (S m) [] st lab.
  Proof.
    intros [B1 B2 B3 B4 B5 B6 B7 B8] NE. constructor; auto.
    - rewrite B3. apply map_ext. intros [f|l]; [|reflexivity]. unfold brow. rewrite seq_S, filter_app. cbn [filter Nat.add mem existsb]. rewrite app_nil_r. reflexivity.
    - intros f. rewrite B7. split.
      + intros [(l & L & I)|I]; left; [exists l|exists m]; split; auto.
      + intros [(l & L & I)|[]]. destruct (Nat.eq_dec l m) as [->|]; auto. left. exists l. split; auto. lia.
    - intros l. rewrite B8. split; [intros [A B]; split; auto|]. intros [A B]. split; auto. destruct (Nat.eq_dec l m) as [->|]; [contradiction|lia].
  Qed.
  Lemma block_loop_ok m st lab : (m < length loops)%nat -> binv m [] st lab -> exists st' lab', block_loop emap (st, m) (nth m loops []) = Ret (st', S m) /\ binv (S m) [] st' lab'.
  Proof.
    intros Hm B. destruct (F_ok m Hm) as (E & N & _ & R). unfold block_loop. rewrite E. cbn [bind]. destruct (F m) as [|f us] eqn:Q.
    - destruct B as [B1 B2 B3 B4 B5 B6 B7 B8]. destruct st as [[cnt c2b] t]. cbn [fst snd] in *. cbn [bind]. eexists _, (lab ++ [inr m]). split; [reflexivity|]. constructor; cbn [fst snd]; auto.
      + rewrite app_length. cbn. lia.
      + replace cnt with (length t) by (rewrite B3, map_length; auto). rewrite tc_add_new, B3, map_app. f_equal. apply map_ext. intros [f|l]; [|reflexivity]. unfold brow. rewrite seq_S, filter_app. cbn [filter Nat.add]. rewrite Q. cbn [mem existsb]. rewrite !app_nil_r. reflexivity.
      + assert (NN : forall (l : list (Z + nat)) x, NoDup l -> ~ In x l -> NoDup (l ++ [x])).
        { clear. induction l as [|y l IH]; intros x N I; cbn [app]; [constructor; auto; constructor|]. inversion N; subst. constructor; [|apply IH; auto; intros Q; apply I; cbn; auto]. rewrite in_app_iff. cbn. intros [Q|[->|[]]]; auto. apply I; cbn; auto. }
        apply NN; auto. rewrite B8. lia.
      + intros i g Hi. destruct (Nat.lt_ge_cases i (length lab)) as [L|L]; [rewrite nth_error_app1 in Hi by auto; apply B5; auto|].
        rewrite nth_error_app2 in Hi by auto. destruct (i - length lab)%nat as [|j]; [discriminate|destruct j; discriminate].
      + intros f Hf NI. apply B6; auto. intros X. apply NI, in_app_iff. auto.
      + intros f. rewrite in_app_iff, B7. cbn [In]. split.
        * intros [[(l & L & I)|[]]|[X|[]]]; [|discriminate]. left. exists l. split; auto.
        * intros [(l & L & I)|[]]. left. left. exists l. split; auto. destruct (Nat.eq_dec l m) as [->|]; [rewrite Q in I; destruct I|lia].
      + intros l. rewrite in_app_iff, B8. cbn [In]. split.
        * intros [[A1 A2]|[X|[]]]; [split; auto|]. injection X as <-. split; [lia|exact Q].
        * intros [A1 A2]. destruct (Nat.eq_dec l m) as [->|]; auto. left. split; auto. lia.
    - destruct (block_facets_ok m (f :: us) [] st lab B) as (s' & lab' & E2 & B2); auto. rewrite E2. cbn [bind app] in *. exists s', lab'. split; [reflexivity|]. apply binv_next; rewrite Q; [exact B2|discriminate].
  Qed.
  Lemma blocks_inv : exists lab, all_blocks emap nce loops = Ret (map (brow (length loops) []) lab) /\ NoDup lab /\
     (forall f, In (inl f) lab <-> exists l, (l < length loops)%nat /\ In f (F l)) /\ (forall l, In (inr l) lab <-> (l < length loops)%nat /\ F l = []).
  Proof.
    assert (G : forall n m st lab, (m + n = length loops)%nat -> binv m [] st lab -> exists st' lab', foldM (block_loop emap) (skipn m loops) (st, m) = Ret (st', length loops) /\ binv (length loops) [] st' lab').
    { induction n as [|n IH]; intros m st lab H B.
      - replace m with (length loops) in * by lia. rewrite skipn_all. exists st, lab. split; [reflexivity|exact B].
      - assert (Hm : (m < length loops)%nat) by lia. assert (SK : skipn m loops = nth m loops [] :: skipn (S m) loops). { clear -Hm. revert m Hm. induction loops as [|x l IH]; intros m Hm; cbn in Hm; [lia|]. destruct m; [reflexivity|]. cbn [skipn nth]. apply IH. lia. }
        rewrite SK. cbn [foldM]. destruct (block_loop_ok m st lab Hm B) as (s1 & l1 & E & B1). rewrite E. cbn [bind]. apply (IH (S m) s1 l1); auto. lia. }
    destruct (G (length loops) 0%nat (O, repeat (-1)%Z nce, []) []) as (st & lab & E & B); [reflexivity| |].
    - constructor; cbn [fst snd]; auto.
      + apply repeat_length.
      + constructor.
      + intros i f Hi. destruct i; discriminate.
      + intros f Hf _. assert (R : forall n i, nth i (repeat (-1)%Z n) (-1)%Z = (-1)%Z) by (induction n as [|n IH]; intros i; destruct i; cbn; auto). apply R.
      + intros f. cbn [In]. split; [tauto|]. intros [(l & L & _)|[]]. lia.
      + intros l. cbn [In]. split; [tauto|lia].
    - exists lab. unfold all_blocks. match goal with |- bind ?X _ = _ /\ _ => replace X with (Ret (st, length loops)) by (symmetry; exact E) end. cbn [bind]. destruct B as [B1 B2 B3 B4 B5 B6 B7 B8]. rewrite B3. split; [reflexivity|]. split; auto. split; auto. intros f. rewrite B7. cbn [In]. tauto.
  Qed.
End Blocks.
