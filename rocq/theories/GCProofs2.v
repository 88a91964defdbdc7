(** The contracted tables are consistent; numbers of the contracted vertices. *)
From Verif Require Import Base EQCModel UtilProofs EQCProofs EQCProofs2 EQCProofs3 GCModel GCProofs.
Local Open Scope nat_scope.

(** *** generic *)
Lemma flat_app {A B} (f : A -> list B) l1 x l2 i d : i < length (f x) -> nth (length (flat_map f l1) + i) (flat_map f (l1 ++ x :: l2)) d = nth i (f x) d.
Proof. intros Hi. rewrite flat_map_app. cbn [flat_map]. rewrite app_nth2 by lia. replace (length (flat_map f l1) + i - length (flat_map f l1)) with i by lia. now rewrite app_nth1. Qed.
Lemma flat_len {A B} (f : A -> list B) l : length (flat_map f l) = list_sum (map (fun x => length (f x)) l).
Proof. induction l as [|x l IH]; auto. cbn [flat_map map list_sum]. rewrite app_length, IH. reflexivity. Qed.
Lemma sum_app l l' : list_sum (l ++ l') = list_sum l + list_sum l'. Proof. apply list_sum_app. Qed.
Lemma sum_perm l l' : Permutation l l' -> list_sum l = list_sum l'.
Proof. induction 1; cbn; auto; lia. Qed.
Lemma filter_perm {A} (f : A -> bool) l l' : Permutation l l' -> Permutation (filter f l) (filter f l').
Proof. induction 1; cbn; auto. destruct (f x); auto. destruct (f x), (f y); auto. apply perm_swap. etransitivity; eauto. Qed.
Lemma idx_split {A} (eqb : A -> A -> bool) (E : forall a b, eqb a b = true <-> a = b) (x : A) l : In x l -> exists l2, l = firstn (idx eqb x l) l ++ x :: l2.
Proof.
  induction l as [|y l IH]; intros HI; [destruct HI|]. cbn [idx]. destruct (eqb y x) eqn:X. apply E in X. subst. exists l. reflexivity.
  destruct HI as [->|HI]. rewrite (proj2 (E x x) eq_refl) in X. discriminate. destruct (IH HI) as (l2 & K). exists l2. cbn [firstn app]. now f_equal.
Qed.
Lemma idx_app {A} (eqb : A -> A -> bool) (E : forall a b, eqb a b = true <-> a = b) (x : A) l1 l2 : ~ In x l1 -> idx eqb x (l1 ++ x :: l2) = length l1.
Proof.
  induction l1 as [|y l IH]; intros HN; cbn [app idx length]. now rewrite (proj2 (E x x) eq_refl). destruct (eqb y x) eqn:X. apply E in X. subst. exfalso. apply HN. now left. f_equal. apply IH. intros X'. apply HN. now right.
Qed.
Lemma seq_split_at m n : m < n -> seq 0 n = seq 0 m ++ m :: seq (S m) (n - S m).
Proof. intros Hm. replace n with (m + S (n - S m)) at 1 by lia. rewrite seq_app. reflexivity. Qed.

(** *** cut_min *)
Lemma cut_min_cons x a y b : cut_min (x :: a) (y :: b) = if x <? y then cut_min a (y :: b) else if y <? x then cut_min (x :: a) b else Some x. Proof. reflexivity. Qed.
Lemma cut_min_ok a : forall b, sset a -> sset b -> (exists x, cut_min a b = Some x /\ In x a /\ In x b) \/ (cut_min a b = None /\ forall x, In x a -> In x b -> False).
Proof.
  induction a as [|x a IH]; intros b SA; [intros _; right; split; [destruct b; auto|intros z []]|].
  induction b as [|y b IHb]; intros SB; [right; split; auto|]. rewrite cut_min_cons. inversion SA as [|? ? SA1 SA2]; inversion SB as [|? ? SB1 SB2]; subst. rewrite Forall_forall in SA2, SB2.
  destruct (Nat.ltb_spec x y); [|destruct (Nat.ltb_spec y x)].
  - destruct (IH (y :: b)) as [(z & Z1 & Z2 & Z3)|(Z1 & Z2)]; auto. left. exists z. cbn [In] in *. auto. right. split; auto. intros z [<-|Za] Zb; [|eauto]. destruct Zb as [->|Zb]. lia. specialize (SB2 x Zb). lia.
  - destruct IHb as [(z & Z1 & Z2 & Z3)|(Z1 & Z2)]; auto. left. exists z. cbn [In] in *. auto. right. split; auto. intros z Za [<-|Zb]; [|eauto]. destruct Za as [->|Za]. lia. specialize (SA2 y Za). lia.
  - left. exists x. split; auto. split. now left. left. lia.
Qed.

Section GC2.
  Variables (H : list (list (list nat))) (groups : list (list nat)).
  Hypothesis HW : world H.
  Notation np := (length H).
  Notation ng := (length groups).
  Notation grp g := (nth g groups []).
  Hypothesis G_rank : forall g p, g < ng -> In p (grp g) -> p < np.
  Hypothesis G_all : forall p, p < np -> exists g, g < ng /\ In p (grp g).
  Hypothesis G_one : forall g g' p, g < ng -> g' < ng -> In p (grp g) -> In p (grp g') -> g = g'.
  Hypothesis G_ne : forall g, g < ng -> grp g <> [].
  Hypothesis G_sort : forall g, g < ng -> sset (grp g).
  Notation MC := (MC H groups).
  Notation gof := (gof groups).
  Notation cset := (cset groups).
  Notation crow := (crow groups).
  Notation ctab_of := (ctab_of H groups).
  Notation mnr := (mnr H groups).
  Notation cnr := (cnr H groups).
  Notation cl := (cl H groups).

  (** *** consistency *)
  Lemma gof_lt p : p < np -> gof p < ng. Proof. intros. now apply (gof_in H groups). Qed.
  Lemma MC_gof g D : g < ng -> In D (MC g) -> In g (cset D).
  Proof. intros Hg X. destruct (MC_facts H groups HW G_rank g D Hg X) as (_ & _ & r & R1 & R2). apply cset_in. exists r. split; auto. now apply (gof_ok groups G_one). Qed.
  Lemma MC_share g q D : g < ng -> q < ng -> In D (MC g) -> In q (cset D) -> In D (MC q).
  Proof. intros Hg Hq X Y. apply cset_in in Y as (p & P1 & P2). destruct (MC_facts H groups HW G_rank g D Hg X) as (_ & A & _). apply (MC_other H groups HW G_rank g q D p); auto. rewrite <- P2. apply (gof_in H groups); auto. Qed.
  Lemma cset_lt g D q : g < ng -> In D (MC g) -> In q (cset D) -> q < ng.
  Proof. intros Hg X Y. apply cset_in in Y as (p & P1 & <-). apply gof_lt. now apply (MC_facts H groups HW G_rank g D Hg X). Qed.
  Lemma members_crow g D : g < ng -> In D (MC g) -> members g (crow g D) = cset D.
  Proof. intros Hg X. apply members_del. apply cset_sset. now apply MC_gof. Qed.
  Lemma ctabs_ok : tables_ok (map ctab_of (seq 0 ng)).
  Proof.
    assert (LN : length (map ctab_of (seq 0 ng)) = ng) by now rewrite map_length, seq_length. assert (NT : forall g, g < ng -> nth g (map ctab_of (seq 0 ng)) [] = ctab_of g) by (intros g Hg; rewrite (nth_map_ok _ _ _ 0) by (now rewrite seq_length); now rewrite seq_nth).
    constructor; rewrite LN.
    - intros g d Hg. rewrite NT by auto. intros X. apply ctab_in in X as (D & X & ->). split. apply del_sset, cset_sset. split. intros Y. apply in_del in Y. tauto. intros q Y. apply in_del in Y as (Y & _). now apply (cset_lt g D).
    - intros g Hg. rewrite NT by auto. apply ctab_nodup.
    - intros g d q Hg. rewrite NT by auto. intros X Y. apply ctab_in in X as (D & X & ->). rewrite members_crow by auto. apply in_del in Y as (Y & _). assert (Hq : q < ng) by now apply (cset_lt g D). rewrite NT by auto. apply ctab_in. exists D. split; auto. now apply (MC_share g).
  Qed.
  Lemma cnr_iff g D D' : g < ng -> In D (MC g) -> In D' (MC g) -> (cnr g D = cnr g D' <-> cset D = cset D').
  Proof.
    intros Hg X X'. destruct (cnr_ok H groups g D X) as (A & B). destruct (cnr_ok H groups g D' X') as (A' & B'). split.
    - intros E. rewrite <- (members_crow g D), <- (members_crow g D') by auto. rewrite <- B, <- B', E. reflexivity.
    - intros E. unfold GCProofs.cnr, GCProofs.crow. now rewrite E.
  Qed.

  (** *** vertices *)
  (** classes shared by the same groups: the same list on all of them *)
  Definition blk (g : nat) (E : list nat) : list (list nat) := filter (fun D => list_eqb (cset D) E) (MC g).
  Lemma blk_in g E D : In D (blk g E) <-> In D (MC g) /\ cset D = E.
  Proof. unfold blk. rewrite filter_In, list_eqb_eq. tauto. Qed.
  Lemma ssmap_filter {A} (f : A -> nat) (P : A -> bool) l : sset (map f l) -> sset (map f (filter P l)).
  Proof.
    induction l as [|x l IH]; intros S; auto. cbn [map] in S. inversion S as [|? ? S1 S2]; subst. cbn [filter]. destruct (P x); auto. cbn [map]. constructor; auto. rewrite Forall_forall in *. intros y Hy. apply S2. apply in_map_iff in Hy as (z & <- & Hz). apply filter_In in Hz. apply in_map. tauto.
  Qed.
  Lemma ssmap_ext {A} (f : A -> nat) l l' : (forall x y, In x l -> In y l' -> f x = f y -> x = y) -> sset (map f l) -> sset (map f l') -> (forall x, In x l <-> In x l') -> l = l'.
  Proof.
    intros Inj S S' E. assert (EM : map f l = map f l'). { apply sset_ext; auto. intros n. rewrite !in_map_iff. split; intros (x & X1 & X2); exists x; split; auto; now apply E. }
    clear S S' E. revert l' Inj EM. induction l as [|x l IH]; intros [|y l'] Inj EM; auto; try discriminate. cbn [map] in EM. injection EM as E1 E2. f_equal. apply Inj; auto; now left. apply IH; auto. intros; apply Inj; auto; now right.
  Qed.
  Lemma blk_shared g g' E : g < ng -> g' < ng -> In g E -> In g' E -> blk g E = blk g' E.
  Proof.
    intros Hg Hg' X X'. apply (ssmap_ext (gid H)).
    - intros D D' Y Y' Eq. apply blk_in in Y as (Y & _). apply blk_in in Y' as (Y' & _). apply MC_in in Y as (r & R1 & R2). apply MC_in in Y' as (r' & R1' & R2'). apply (gid_eq H HW r r'); eauto.
    - apply ssmap_filter, MC_sorted; auto.
    - apply ssmap_filter, MC_sorted; auto.
    - intros D. rewrite !blk_in. split; intros (Y & <-); split; auto. now apply (MC_share g). now apply (MC_share g').
  Qed.
  Variable V : list (list (list nat)).
  Hypothesis V_len : forall r, r < np -> length (nth r V []) = length (nth r H []).
  Hypothesis V_seq : forall r, r < np -> concat (nth r V []) = seq 0 (length (concat (nth r V []))).
  Hypothesis V_same : forall r r' j j', r < np -> r' < np -> j < length (nth r H []) -> j' < length (nth r' H []) -> nth j (classes H r) [] = nth j' (classes H r') [] -> length (nth j (nth r V []) []) = length (nth j' (nth r' V []) []).
  (** number of vertices of a class *)
  Definition nv (D : list nat) : nat := length (nth (idx list_eqb D (classes H (hd 0 D))) (nth (hd 0 D) V []) []).
  Lemma nv_ok r j : r < np -> j < length (nth r H []) -> nv (nth j (classes H r) []) = length (nth j (nth r V []) []).
  Proof.
    intros Hr Hj. set (D := nth j (classes H r) []). assert (X : In D (classes H r)) by (apply nth_In; unfold classes; now rewrite map_length). destruct (class_facts H HW r D Hr X) as (S1 & S2 & S3 & S4).
    unfold nv. set (r0 := hd 0 D). assert (R0 : In r0 D) by (unfold r0; destruct D; [destruct S2|now left]). destruct (class_cons H HW r D r0 Hr X R0) as (Hr0 & X0).
    destruct (pos_by_idx list_eqb D (classes H r0) (fun a b => list_eqb_eq a b) X0 0) as (_ & A & B). apply V_same; auto. unfold classes in A. now rewrite map_length in A.
  Qed.
  Definition evs_of (g : nat) : list (list (list nat)) := map (fun r => nth r V []) (grp g).
  Lemma evs_nth g k : k < length (grp g) -> nth k (evs_of g) [] = nth (nth k (grp g) 0) V []. Proof. intros Hk. unfold evs_of. now rewrite (nth_map_ok _ _ _ 0). Qed.
  Lemma vslot g k j : g < ng -> In (k, j) (tslots (evs_of g)) <-> k < length (grp g) /\ j < length (nth (nth k (grp g) 0) H []).
  Proof.
    intros Hg. change (tslots (evs_of g)) with (slots (evs_of g)). rewrite slots_in. unfold evs_of at 1. rewrite map_length. split; intros (A & B); split; auto; rewrite evs_nth in * by auto; rewrite V_len in *; auto; apply (G_rank g); auto; now apply nth_In.
  Qed.
  Notation vn g k j := (length (nth j (nth (nth k (grp g) 0) V []) [])).
  Lemma vn_ok g k j : g < ng -> k < length (grp g) -> j < length (nth (nth k (grp g) 0) H []) -> vn g k j = nv (cl g k j).
  Proof. intros Hg Hk Hj. symmetry. apply nv_ok; auto. apply (G_rank g); auto. now apply nth_In. Qed.
  (** the sender *)
  Definition sendr (g : nat) (D : list nat) : option nat := cut_min D (grp g).
  Lemma sendr_ok g D : g < ng -> In D (MC g) -> exists r, sendr g D = Some r /\ In r (grp g) /\ In D (classes H r).
  Proof.
    intros Hg X. destruct (MC_facts H groups HW G_rank g D Hg X) as (S1 & _ & r & R1 & R2). destruct (cut_min_ok D (grp g) S1 (G_sort g Hg)) as [(x & E & X1 & X2)|(_ & E)]; [|exfalso; eauto].
    exists x. split; auto. split; auto. apply (MC_has H groups HW G_rank g); auto.
  Qed.
  Definition is_sender (g : nat) (s : nat * nat) : bool := oeqb (Some (nth (fst s) (grp g) 0)) (sendr g (cl g (fst s) (snd s))).
  Notation sslots g := (filter (is_sender g) (tslots (evs_of g))).
  Notation mslot g s := (mnr g (cl g (fst s) (snd s))).
  Notation cslot g s := (cnr g (cl g (fst s) (snd s))).
  Lemma slots_nodup tabs : NoDup (slots tabs).
  Proof.
    unfold slots. apply nodup_flat. apply seq_NoDup. intros r _. apply FinFun.Injective_map_NoDup. intros x y E. congruence. apply seq_NoDup.
    intros r r' x _ _ A B. apply in_map_iff in A as (a & <- & _). apply in_map_iff in B as (b & E & _). congruence.
  Qed.
  Lemma sslots_perm g : g < ng -> Permutation (map (fun s => cl g (fst s) (snd s)) (sslots g)) (MC g).
  Proof.
    intros Hg. apply NoDup_Permutation.
    - assert (NI : forall l, NoDup l -> incl l (sslots g) -> NoDup (map (fun s => cl g (fst s) (snd s)) l)).
      { induction l as [|(k, j) l IH]; intros ND HI; cbn [map]; constructor.
        - intros X. apply in_map_iff in X as ((k', j') & E & X). cbn [fst snd] in E. assert (A := HI _ (or_introl eq_refl)). assert (A' := HI _ (or_intror X)). apply filter_In in A as (A1 & A2). apply filter_In in A' as (A1' & A2').
          apply vslot in A1 as (Hk & Hj); auto. apply vslot in A1' as (Hk' & Hj'); auto. unfold is_sender in A2, A2'. cbn [fst snd] in A2, A2'. rewrite E in A2'. destruct (sendr g (cl g k j)) as [x|]; [|discriminate]. cbn in A2, A2'. apply Nat.eqb_eq in A2, A2'.
          assert (k' = k). { apply (proj1 (NoDup_nth (grp g) 0) (sset_nodup _ (G_sort g Hg))); auto. congruence. } subst k'.
          assert (j' = j). { apply (proj1 (NoDup_nth (classes H (nth k (grp g) 0)) [])). apply classes_nodup; auto. apply (G_rank g); auto. now apply nth_In. unfold classes. now rewrite map_length. unfold classes. now rewrite map_length. exact E. } subst j'. inversion ND; subst. contradiction.
        - apply IH. now inversion ND. intros z Z. apply HI. now right. }
      apply NI; [|intros z; auto]. apply NoDup_filter. apply slots_nodup.
    - apply MC_nodup.
    - intros D. rewrite in_map_iff. split.
      + intros ((k, j) & <- & X). apply filter_In in X as (X & _). apply vslot in X as (Hk & Hj); auto. now apply cl_in.
      + intros X. destruct (sendr_ok g D Hg X) as (r & E & R1 & R2). apply In_nth with (d := 0) in R1 as (k & Hk & <-). apply In_nth with (d := []) in R2 as (j & Hj & <-). unfold classes in Hj. rewrite map_length in Hj. exists (k, j). split; auto. apply filter_In. split. now apply vslot. unfold is_sender. cbn [fst snd]. unfold GCProofs.cl. rewrite E. cbn. apply Nat.eqb_refl.
  Qed.
  (** counters *)
  Definition cnt (g c : nat) : nat := list_sum (map nv (filter (fun D => cnr g D =? c) (MC g))).
  Notation CN g := (length (ctab_of g)).
  Notation MN g := (length (MC g)).
  Lemma om_read g k j : g < ng -> k < length (grp g) -> j < length (nth (nth k (grp g) 0) H []) -> at2 (map (om_of H groups g) (grp g)) (k, j) = Ret (mnr g (cl g k j)).
  Proof. intros Hg Hk Hj. destruct (slot_reads H groups g k j Hg Hk Hj) as (_ & _ & R3 & R4). unfold at2. cbn [fst snd]. rewrite R3. cbn [bind]. exact R4. Qed.
  Lemma oc_read g k j : k < length (grp g) -> j < length (nth (nth k (grp g) 0) H []) -> at2 (map (fun r => map (cnr g) (classes H r)) (grp g)) (k, j) = Ret (cnr g (cl g k j)).
  Proof.
    intros Hk Hj. unfold at2. cbn [fst snd]. rewrite (rd_ok _ _ []) by now rewrite map_length. cbn [bind]. rewrite (nth_map_ok _ _ _ 0) by auto. rewrite (rd_ok _ _ 0) by (unfold classes; now rewrite !map_length). rewrite (nth_map_ok _ _ _ []) by (unfold classes; now rewrite map_length). reflexivity.
  Qed.
  Lemma ev_read g k j : g < ng -> k < length (grp g) -> j < length (nth (nth k (grp g) 0) H []) -> at2 (evs_of g) (k, j) = Ret (nth j (nth (nth k (grp g) 0) V []) []).
  Proof.
    intros Hg Hk Hj. unfold at2. cbn [fst snd]. rewrite (rd_ok _ _ []) by (unfold evs_of; now rewrite map_length). cbn [bind]. rewrite evs_nth by auto. apply rd_ok. rewrite V_len; auto. apply (G_rank g); auto. now apply nth_In.
  Qed.
  Lemma count_ok g : g < ng -> exists dsp fv, count_verts (grp g) (contr H groups g) (senders (grp g) (contr H groups g)) (evs_of g) = Ret (dsp, fv) /\ length dsp = CN g + 1 /\ length fv = MN g /\
    nth 0 dsp 0 = 0 /\ (forall c, c < CN g -> nth (c + 1) dsp 0 = cnt g c) /\ (forall m, m < MN g -> nth m fv 0 = nv (nth m (MC g) [])).
  Proof.
    intros Hg. unfold count_verts. cbn [c_om c_oc c_tab c_mc contr]. rewrite map_length.
    set (F := fun '(dsp, fst_v) (s : nat * nat) => vs <- at2 (evs_of g) s ;; m <- at2 (map (om_of H groups g) (grp g)) s ;; sd <- rd (senders (grp g) (contr H groups g)) m ;; r <- rd (grp g) (fst s) ;;
      if oeqb (Some r) sd then c <- at2 (map (fun r0 => map (cnr g) (classes H r0)) (grp g)) s ;; o <- rd dsp (c + 1) ;; dsp0 <- wr dsp (c + 1) (o + length vs) ;; fst_v0 <- wr fst_v m (length vs) ;; Ret (dsp0, fst_v0) else Ret (dsp, fst_v)).
    assert (K : forall l, incl l (tslots (evs_of g)) -> forall dsp fv, length dsp = CN g + 1 -> length fv = MN g -> exists dsp' fv', foldM F l (dsp, fv) = Ret (dsp', fv') /\ length dsp' = CN g + 1 /\ length fv' = MN g /\
      nth 0 dsp' 0 = nth 0 dsp 0 /\ (forall c, c < CN g -> nth (c + 1) dsp' 0 = nth (c + 1) dsp 0 + list_sum (map (fun s => nv (cl g (fst s) (snd s))) (filter (fun s => cslot g s =? c) (filter (is_sender g) l)))) /\
      (forall m, m < MN g -> (exists s, In s (filter (is_sender g) l) /\ mslot g s = m) \/ nth m fv 0 = nv (nth m (MC g) []) -> nth m fv' 0 = nv (nth m (MC g) []))).
    { induction l as [|(k, j) l IH]; intros HI dsp fv L1 L2; cbn [foldM].
      - exists dsp, fv. split; auto. split; auto. split; auto. split; auto. split. intros; cbn; lia. intros m Hm [(s & [] & _)|X]; auto.
      - destruct (proj1 (vslot g k j Hg) (HI _ ltac:(now left))) as (Hk & Hj). destruct (mnr_ok H groups g _ (cl_in H groups g k j Hk Hj)) as (M1 & M2).
        assert (EF : F (dsp, fv) (k, j) = if is_sender g (k, j) then Ret (upd dsp (cnr g (cl g k j) + 1) (nth (cnr g (cl g k j) + 1) dsp 0 + nv (cl g k j)), upd fv (mnr g (cl g k j)) (nv (cl g k j))) else Ret (dsp, fv)).
        { unfold F. rewrite ev_read by auto. cbn [bind]. rewrite om_read by auto. cbn [bind]. rewrite (rd_ok _ _ None) by (unfold senders; cbn [c_mmems contr]; now rewrite map_length). cbn [bind]. cbn [fst]. rewrite (rd_ok _ _ 0) by auto. cbn [bind].
          unfold senders. cbn [c_mmems contr]. rewrite (nth_map_ok _ _ _ []) by auto. rewrite M2. change (oeqb (Some (nth k (grp g) 0)) (cut_min (cl g k j) (grp g))) with (is_sender g (k, j)). destruct (is_sender g (k, j)); auto.
          rewrite oc_read by auto. cbn [bind]. destruct (cnr_ok H groups g _ (cl_in H groups g k j Hk Hj)) as (C1 & C2). rewrite (rd_ok _ _ 0) by lia. cbn [bind]. rewrite wr_ok by lia. cbn [bind]. rewrite wr_ok by lia. cbn [bind]. rewrite vn_ok by auto. reflexivity. }
        rewrite EF. cbn [filter]. destruct (is_sender g (k, j)) eqn:ES; cbn [bind].
        + destruct (cnr_ok H groups g _ (cl_in H groups g k j Hk Hj)) as (C1 & C2).
          destruct (IH ltac:(intros z Z; apply HI; now right) (upd dsp (cnr g (cl g k j) + 1) (nth (cnr g (cl g k j) + 1) dsp 0 + nv (cl g k j))) (upd fv (mnr g (cl g k j)) (nv (cl g k j))) ltac:(now rewrite upd_length) ltac:(now rewrite upd_length)) as (d' & f' & E & A1 & A2 & A3 & A4 & A5).
          exists d', f'. split; auto. split; auto. split; auto. split. rewrite A3. now rewrite nth_upd_neq by lia. split.
          * intros c Hc. rewrite A4 by auto. cbn [filter fst snd]. destruct (Nat.eqb_spec (cnr g (cl g k j)) c) as [<-|N]. rewrite nth_upd_eq by lia. cbn [map list_sum fold_right fst snd]. unfold list_sum. lia. rewrite nth_upd_neq by lia. reflexivity.
          * intros m Hm X. apply A5; auto. destruct (Nat.eq_dec (mnr g (cl g k j)) m) as [<-|N]. right. rewrite nth_upd_eq by lia. now rewrite M2. rewrite nth_upd_neq by auto. destruct X as [(s & [<-|X] & e)|X]; auto. contradiction. left. exists s. auto.
        + destruct (IH ltac:(intros z Z; apply HI; now right) dsp fv L1 L2) as (d' & f' & E & A). exists d', f'. auto. }
    destruct (K (tslots (evs_of g)) ltac:(intros z; auto) (repeat 0 (CN g + 1)) (repeat 0 (MN g)) (repeat_length _ _) (repeat_length _ _)) as (dsp & fv & E & L1 & L2 & A3 & A4 & A5).
    exists dsp, fv. split. exact E. split; auto. split; auto. split. rewrite A3. apply nth_repeat. split.
    - intros c Hc. rewrite A4 by auto. rewrite nth_repeat. cbn [plus]. unfold cnt. rewrite <- (sum_perm _ _ (Permutation_map nv (filter_perm _ _ _ (sslots_perm g Hg)))). f_equal. clear. induction (filter (is_sender g) (tslots (evs_of g))) as [|s l IH]; auto. cbn [filter map]. destruct (cslot g s =? c); cbn [map]; auto. now rewrite IH.
    - intros m Hm. apply A5; auto. left. assert (X := Permutation_in _ (Permutation_sym (sslots_perm g Hg)) (nth_In (MC g) [] Hm)). apply in_map_iff in X as (s & X1 & X2). exists s. split; auto. rewrite X1. now apply mnr_nth.
  Qed.
  (** summation *)
  Lemma sum_up_ok dsp n (f : nat -> nat) : length dsp = n + 1 -> nth 0 dsp 0 = 0 -> (forall c, c < n -> nth (c + 1) dsp 0 = f c) -> exists d, sum_up dsp n = Ret d /\ length d = n + 1 /\ forall c, c <= n -> nth c d 0 = list_sum (map f (seq 0 c)).
  Proof.
    intros L Z F. unfold sum_up.
    assert (K : forall k, k <= n -> exists d, foldM (fun d k => a <- rd d k ;; b <- rd d (k + 1) ;; wr d (k + 1) (b + a)) (seq 0 k) dsp = Ret d /\ length d = n + 1 /\ (forall c, c <= k -> nth c d 0 = list_sum (map f (seq 0 c))) /\ forall c, k < c -> nth c d 0 = nth c dsp 0).
    { induction k as [|k IH]; intros Hk.
      - exists dsp. split; auto. split; auto. split; auto. intros c Hc. replace c with 0 by lia. auto.
      - destruct (IH ltac:(lia)) as (d & E & L' & A & B). rewrite seq_S, foldM_app, E. cbn [bind foldM plus]. rewrite (rd_ok _ _ 0) by lia. cbn [bind]. rewrite (rd_ok _ _ 0) by lia. cbn [bind]. rewrite wr_ok by lia. cbn [bind]. eexists. split; [reflexivity|]. rewrite upd_length. split; auto. split.
        + intros c Hc. destruct (Nat.eq_dec (k + 1) c) as [<-|N]. rewrite nth_upd_eq by lia. rewrite (A k), (B (k + 1)), F by lia. replace (k + 1) with (S k) by lia. rewrite seq_S, map_app, sum_app. cbn. lia. rewrite nth_upd_neq by auto. apply A. lia.
        + intros c Hc. rewrite nth_upd_neq by lia. apply B. lia. }
    destruct (K n (le_n _)) as (d & E & L' & A & _). exists d. auto.
  Qed.
  (** first numbers *)
  Definition base (g c : nat) : nat := list_sum (map (cnt g) (seq 0 c)).
  Definition offs (g : nat) (m : nat) : nat := list_sum (map nv (filter (fun D => cnr g D =? cnr g (nth m (MC g) [])) (firstn m (MC g)))).
  Lemma firstn_S {A} (l : list A) n d : n < length l -> firstn (S n) l = firstn n l ++ [nth n l d].
  Proof. revert n. induction l as [|x l IH]; intros [|n] Hn; cbn [length] in Hn; try lia; auto. cbn [firstn nth app]. f_equal. apply IH. lia. Qed.
  Lemma first_ok g dsp fv : g < ng -> length dsp = CN g + 1 -> (forall c, c <= CN g -> nth c dsp 0 = base g c) -> length fv = MN g -> (forall m, m < MN g -> nth m fv 0 = nv (nth m (MC g) [])) ->
    exists f, first_numbers (contr H groups g) dsp fv = Ret f /\ length f = MN g /\ forall m, m < MN g -> nth m f 0 = base g (cnr g (nth m (MC g) [])) + offs g m.
  Proof.
    intros Hg L1 HD L2 HF. unfold first_numbers. cbn [c_mc c_tab contr]. rewrite map_length.
    set (F := fun '(f, sz) m => c <- rd (map (cnr g) (MC g)) m ;; bs <- rd f m ;; d <- rd dsp c ;; z <- rd sz c ;; f0 <- wr f m (d + z) ;; sz0 <- wr sz c (z + bs) ;; Ret (f0, sz0)).
    assert (K : forall n, n <= MN g -> exists f sz, foldM F (seq 0 n) (fv, repeat 0 (CN g)) = Ret (f, sz) /\ length f = MN g /\ length sz = CN g /\
      (forall m, m < n -> nth m f 0 = base g (cnr g (nth m (MC g) [])) + offs g m) /\ (forall m, n <= m < MN g -> nth m f 0 = nv (nth m (MC g) [])) /\ (forall c, c < CN g -> nth c sz 0 = list_sum (map nv (filter (fun D => cnr g D =? c) (firstn n (MC g)))))).
    { induction n as [|n IH]; intros Hn.
      - exists fv, (repeat 0 (CN g)). split; auto. split; auto. rewrite repeat_length. split; auto. split. intros; lia. split. intros; apply HF; lia. intros c Hc. now rewrite nth_repeat.
      - destruct (IH ltac:(lia)) as (f & sz & E & A1 & A2 & A3 & A4 & A5). rewrite seq_S, foldM_app, E. cbn [bind foldM plus]. unfold F at 1. set (D := nth n (MC g) []).
        assert (HDm : In D (MC g)) by (apply nth_In; lia). destruct (cnr_ok H groups g D HDm) as (C1 & _). rewrite (rd_ok _ _ 0) by (rewrite map_length; lia). cbn [bind]. rewrite (nth_map_ok _ _ _ []) by lia. fold D.
        rewrite (rd_ok _ _ 0) by lia. cbn [bind]. rewrite (rd_ok _ _ 0) by lia. cbn [bind]. rewrite (rd_ok _ _ 0) by lia. cbn [bind]. rewrite wr_ok by lia. cbn [bind]. rewrite wr_ok by lia. cbn [bind]. eexists _, _. split; [reflexivity|]. rewrite !upd_length. split; auto. split; auto. split; [|split].
        + intros m Hm. destruct (Nat.eq_dec n m) as [<-|N]. rewrite nth_upd_eq by lia. fold D. rewrite HD by lia. rewrite A5 by auto. unfold offs. fold D. reflexivity. rewrite nth_upd_neq by auto. apply A3. lia.
        + intros m Hm. rewrite nth_upd_neq by lia. apply A4. lia.
        + intros c Hc. rewrite (firstn_S _ _ []) by lia. fold D. rewrite filter_app, map_app, sum_app. cbn [filter]. destruct (Nat.eqb_spec (cnr g D) c) as [<-|N]. rewrite nth_upd_eq by lia. rewrite A5, A4 by lia. fold D. cbn [map list_sum fold_right]. unfold list_sum. lia. rewrite nth_upd_neq by auto. rewrite A5 by auto. cbn. lia. }
    destruct (K (MN g) (le_n _)) as (f & sz & E & A1 & _ & A3 & _). exists f. split; auto. match goal with |- bind ?X _ = _ => replace X with (Ret (f, sz)) by (symmetry; exact E) end. reflexivity.
  Qed.
  (** the map of a member *)
  Lemma vmap_ok om first_v evs (N : nat) : concat evs = seq 0 N -> length om = length evs -> (forall j, j < length evs -> nth j om 0 < length first_v) ->
    exists vm, vertex_map om first_v evs = Ret vm /\ length vm = N /\ forall j l, j < length evs -> l < length (nth j evs []) -> nth (nth l (nth j evs []) 0) vm None = Some (nth (nth j om 0) first_v 0 + l).
  Proof.
    intros ES LO HB. assert (ND : NoDup (concat evs)) by (rewrite ES; apply seq_NoDup). assert (LN : length (concat evs) = N) by (rewrite ES; apply seq_length).
    assert (IN : forall j l, j < length evs -> l < length (nth j evs []) -> nth l (nth j evs []) 0 < N). { intros j l Hj Hl. assert (X : In (nth l (nth j evs []) 0) (concat evs)). apply in_concat. exists (nth j evs []). split; now apply nth_In. rewrite ES in X. apply in_seq in X. lia. }
    unfold vertex_map. rewrite LN.
    assert (K : forall n, n <= length evs -> exists vm, foldM (fun vm j => vs <- rd evs j ;; m <- rd om j ;; f <- rd first_v m ;; foldM (fun vm l => v <- rd vs l ;; wr vm v (Some (f + l))) (seq 0 (length vs)) vm) (seq 0 n) (repeat None N) = Ret vm /\ length vm = N /\
      forall j l, j < n -> l < length (nth j evs []) -> nth (nth l (nth j evs []) 0) vm None = Some (nth (nth j om 0) first_v 0 + l)).
    { induction n as [|n IH]; intros Hn.
      - exists (repeat None N). rewrite repeat_length. split; auto. split; auto. intros; lia.
      - destruct (IH ltac:(lia)) as (vm & E & L & A). rewrite seq_S, foldM_app, E. cbn [bind foldM plus]. rewrite (rd_ok _ _ []) by lia. cbn [bind]. rewrite (rd_ok _ _ 0) by lia. cbn [bind]. rewrite (rd_ok _ _ 0) by (apply HB; lia). cbn [bind]. set (f := nth (nth n om 0) first_v 0).
        assert (KK : forall q, q <= length (nth n evs []) -> exists vm', foldM (fun vm l => v <- rd (nth n evs []) l ;; wr vm v (Some (f + l))) (seq 0 q) vm = Ret vm' /\ length vm' = N /\ (forall l, l < q -> nth (nth l (nth n evs []) 0) vm' None = Some (f + l)) /\ forall v, ~ In v (nth n evs []) -> nth v vm' None = nth v vm None).
        { induction q as [|q IHq]; intros Hq. exists vm. split; auto. split; auto. split; auto. intros; lia. destruct (IHq ltac:(lia)) as (vm' & E' & L' & A' & B'). rewrite seq_S, foldM_app, E'. cbn [bind foldM plus]. rewrite (rd_ok _ _ 0) by lia. cbn [bind]. rewrite wr_ok by (rewrite L'; apply IN; lia). cbn [bind]. eexists. split; [reflexivity|]. rewrite upd_length. split; auto. split.
          - intros l Hl. destruct (Nat.eq_dec q l) as [<-|Nq]. rewrite nth_upd_eq; auto. rewrite L'. apply IN; lia. rewrite nth_upd_neq. apply A'. lia. intros X. apply Nq. apply (proj1 (NoDup_nth (nth n evs []) 0)); auto; try lia. clear - ND Hn. revert n Hn. induction evs as [|e evs IH]; intros n Hn; cbn [length] in Hn; [lia|]. cbn [concat] in ND. destruct n as [|n]; cbn [nth]. clear - ND. induction e as [|x e IH]; cbn [app] in ND; constructor. intros X. inversion ND; subst. apply H1, in_app_iff. auto. apply IH. now inversion ND. apply IH; [|lia]. clear - ND. induction e as [|x e IH]; cbn [app] in ND; auto. apply IH. now inversion ND.
          - intros v Hv. rewrite nth_upd_neq. apply B'; auto. intros <-. apply Hv. apply nth_In. lia. }
        destruct (KK (length (nth n evs [])) (le_n _)) as (vm' & E' & L' & A' & B'). rewrite E'. cbn [bind]. exists vm'. split; auto. split; auto. intros j l Hj Hl. destruct (Nat.eq_dec j n) as [->|Nj]. now apply A'. rewrite B'. apply A; auto. lia.
        intros X. apply Nj. clear - ND X Hl Hj Hn. assert (Y : In (nth l (nth j evs []) 0) (nth j evs [])) by now apply nth_In. revert X Y. generalize (nth l (nth j evs []) 0). intros v X Y. clear Hl l. assert (J : j < length evs) by lia. assert (N : n < length evs) by lia. clear Hn Hj. revert j n J N X Y. induction evs as [|e evs IH]; intros j n J N X Y; cbn [length] in *; [lia|]. cbn [concat] in ND.
        assert (DJ : forall x, In x e -> In x (concat evs) -> False). { clear - ND. induction e as [|y e IH]; intros x []; cbn [app] in ND; intros Z. subst. inversion ND; subst. apply H1, in_app_iff. auto. apply (IH ltac:(now inversion ND) x); auto. }
        assert (ND' : NoDup (concat evs)). { clear - ND. induction e as [|x e IH]; cbn [app] in ND; auto. apply IH. now inversion ND. }
        destruct j as [|j], n as [|n]; cbn [nth] in *; auto.
        + exfalso. apply (DJ v); auto. apply in_concat. exists (nth n evs []). split; auto. apply nth_In. lia.
        + exfalso. apply (DJ v); auto. apply in_concat. exists (nth j evs []). split; auto. apply nth_In. lia.
        + f_equal. apply IH; auto; lia. }
    destruct (K (length evs) (le_n _)) as (vm & E & L & A). exists vm. auto.
  Qed.
  Definition cvert (g : nat) (D : list nat) (l : nat) : nat := base g (cnr g D) + offs g (mnr g D) + l.
  Lemma map_vertices_ok g : g < ng -> exists R, map_vertices (grp g) (contr H groups g) (evs_of g) = Ret R /\
    length (v_dsp R) = CN g + 1 /\ (forall c, c <= CN g -> nth c (v_dsp R) 0 = base g c) /\ length (v_maps R) = length (grp g) /\
    (forall m, m < MN g -> nth m (v_first R) 0 = base g (cnr g (nth m (MC g) [])) + offs g m) /\
    (forall k, k < length (grp g) -> length (nth k (v_maps R) []) = length (concat (nth (nth k (grp g) 0) V []))) /\
    (forall k j l, k < length (grp g) -> j < length (nth (nth k (grp g) 0) H []) -> l < length (nth j (nth (nth k (grp g) 0) V []) []) ->
      nth (nth l (nth j (nth (nth k (grp g) 0) V []) []) 0) (nth k (v_maps R) []) None = Some (cvert g (cl g k j) l)).
  Proof.
    intros Hg. unfold map_vertices. destruct (count_ok g Hg) as (dsp0 & fv & E & L1 & L2 & Z & A & B). rewrite E. cbn [bind]. cbn [c_tab contr]. destruct (sum_up_ok dsp0 (CN g) (cnt g) L1 Z A) as (dsp & E1 & L1' & A'). rewrite E1. cbn [bind].
    destruct (first_ok g dsp fv Hg L1' A' L2 B) as (f & E2 & L3 & F). rewrite E2. cbn [bind].
    destruct (mapM_exists (fun k => om <- rd (c_om (contr H groups g)) k ;; ev <- rd (evs_of g) k ;; vertex_map om f ev)
      (fun k vm => length vm = length (concat (nth (nth k (grp g) 0) V [])) /\ forall j l, j < length (nth (nth k (grp g) 0) H []) -> l < length (nth j (nth (nth k (grp g) 0) V []) []) -> nth (nth l (nth j (nth (nth k (grp g) 0) V []) []) 0) vm None = Some (cvert g (cl g k j) l)) (seq 0 (length (grp g)))) as (maps & E3 & L4 & K).
    { intros k Hk. apply in_seq in Hk. assert (HR : nth k (grp g) 0 < np) by (apply (G_rank g); auto; apply nth_In; lia). cbn [c_om contr]. rewrite (rd_ok _ _ []) by (rewrite map_length; lia). cbn [bind]. rewrite (nth_map_ok _ _ _ 0) by lia. rewrite (rd_ok _ _ []) by (unfold evs_of; rewrite map_length; lia). cbn [bind]. rewrite evs_nth by lia.
      destruct (vmap_ok (om_of H groups g (nth k (grp g) 0)) f (nth (nth k (grp g) 0) V []) (length (concat (nth (nth k (grp g) 0) V [])))) as (vm & E4 & L5 & K).
      - now apply V_seq. - unfold om_of, classes. rewrite !map_length. now rewrite V_len.
      - intros j Hj. rewrite V_len in Hj by auto. rewrite L3. unfold om_of. rewrite (nth_map_ok _ _ _ []) by (unfold classes; now rewrite map_length). apply mnr_ok. apply (cl_in H groups g k j); auto. lia.
      - exists vm. split; auto. split; auto. intros j l Hj Hl. rewrite K; auto; [|now rewrite V_len]. unfold om_of. rewrite (nth_map_ok _ _ _ []) by (unfold classes; now rewrite map_length). fold (cl g k j). assert (X := cl_in H groups g k j ltac:(lia) Hj). destruct (mnr_ok H groups g _ X) as (M1 & M2). rewrite F by auto. rewrite M2. reflexivity. }
    rewrite E3. cbn [bind]. rewrite seq_length in L4. eexists. split; [reflexivity|]. cbn [v_dsp v_first v_maps]. split; auto. split; auto. split; auto. split; auto. split.
    - intros k Hk. destruct (K k k) as (vm & X1 & X2 & _). rewrite (nth_error_nth' _ 0) by (now rewrite seq_length). now rewrite seq_nth. rewrite (nth_error_nth _ _ _ X1). exact X2.
    - intros k j l Hk Hj Hl. destruct (K k k) as (vm & X1 & _ & X2). rewrite (nth_error_nth' _ 0) by (now rewrite seq_length). now rewrite seq_nth. rewrite (nth_error_nth _ _ _ X1). now apply X2.
  Qed.
  (** *** the contracted vertices in order *)
  Definition vlist (g : nat) : list (list nat * nat) := flat_map (fun c => flat_map (fun D => map (pair D) (seq 0 (nv D))) (filter (fun D => cnr g D =? c) (MC g))) (seq 0 (CN g)).
  Lemma offs_prefix g D : In D (MC g) -> exists l2, filter (fun D' => cnr g D' =? cnr g D) (MC g) = filter (fun D' => cnr g D' =? cnr g D) (firstn (mnr g D) (MC g)) ++ D :: l2.
  Proof.
    intros X. destruct (idx_split list_eqb (fun a b => list_eqb_eq a b) D (MC g) X) as (l2 & E). fold (mnr g D) in E. exists (filter (fun D' => cnr g D' =? cnr g D) l2). rewrite E at 1. rewrite filter_app. cbn [filter]. now rewrite Nat.eqb_refl.
  Qed.
  Lemma cnt_len g c : length (flat_map (fun D => map (pair D) (seq 0 (nv D))) (filter (fun D => cnr g D =? c) (MC g))) = cnt g c.
  Proof. rewrite flat_len. unfold cnt. f_equal. apply map_ext. intros D. now rewrite map_length, seq_length. Qed.
  Lemma vlist_len g : length (vlist g) = base g (CN g).
  Proof. unfold vlist, base. rewrite flat_len. f_equal. apply map_ext. intros c. apply cnt_len. Qed.
  Lemma vlist_nth g D l : In D (MC g) -> l < nv D -> cvert g D l < base g (CN g) /\ nth (cvert g D l) (vlist g) ([], 0) = (D, l) /\ base g (cnr g D) <= cvert g D l < base g (S (cnr g D)).
  Proof.
    intros X Hl. destruct (cnr_ok H groups g D X) as (C1 & _). destruct (offs_prefix g D X) as (l2 & EP). destruct (mnr_ok H groups g D X) as (M1 & M2).
    set (f := fun D0 => map (pair D0) (seq 0 (nv D0))) in *.
    assert (OF : offs g (mnr g D) = length (flat_map f (filter (fun D' => cnr g D' =? cnr g D) (firstn (mnr g D) (MC g))))). { unfold offs. rewrite M2, flat_len. f_equal. apply map_ext. intros a. unfold f. now rewrite map_length, seq_length. }
    assert (IC : offs g (mnr g D) + l < cnt g (cnr g D)). { rewrite <- cnt_len, EP. fold f. rewrite flat_map_app, app_length, OF. cbn [flat_map]. rewrite app_length. unfold f at 3. rewrite map_length, seq_length. lia. }
    assert (B1 : base g (S (cnr g D)) = base g (cnr g D) + cnt g (cnr g D)). { unfold base. rewrite seq_S, map_app, sum_app. cbn. lia. }
    assert (MO : forall a b, a <= b -> base g a <= base g b). { intros a b Hab. unfold base. replace b with (a + (b - a)) by lia. rewrite seq_app, map_app, sum_app. lia. }
    unfold cvert. specialize (MO (S (cnr g D)) (CN g) ltac:(lia)). split. lia. split; [|lia].
    unfold vlist. rewrite (seq_split_at (cnr g D)) by auto. fold f. rewrite <- Nat.add_assoc. replace (base g (cnr g D)) with (length (flat_map (fun c => flat_map f (filter (fun D0 => cnr g D0 =? c) (MC g))) (seq 0 (cnr g D)))).
    - rewrite flat_app by (unfold f; rewrite cnt_len; lia). rewrite EP, OF. rewrite flat_app by (unfold f; rewrite map_length, seq_length; lia). unfold f. rewrite (nth_map_ok _ _ _ 0) by (rewrite seq_length; lia). now rewrite seq_nth.
    - rewrite flat_len. unfold base. f_equal. apply map_ext. intros c. apply cnt_len.
  Qed.
  Lemma vlist_in g D l : In (D, l) (vlist g) -> In D (MC g) /\ l < nv D.
  Proof.
    unfold vlist. intros X. apply in_flat_map in X as (c & _ & X). apply in_flat_map in X as (D' & Y & X). apply filter_In in Y as (Y & _). apply in_map_iff in X as (l' & E & X). apply in_seq in X. inversion E; subst. split; auto. lia.
  Qed.
  Lemma vlist_nodup g : NoDup (vlist g).
  Proof.
    unfold vlist. apply nodup_flat. apply seq_NoDup.
    - intros c _. assert (K : forall l, NoDup l -> NoDup (flat_map (fun D => map (pair D) (seq 0 (nv D))) l)).
      { induction l as [|D l IH]; intros ND; cbn [flat_map]. constructor. inversion ND; subst. apply nodup_app; auto. apply FinFun.Injective_map_NoDup. intros a b E. congruence. apply seq_NoDup. intros x A B. apply in_map_iff in A as (a & <- & _). apply in_flat_map in B as (D' & B & C). apply in_map_iff in C as (b & E & _). inversion E; subst. contradiction. }
      apply K, NoDup_filter, MC_nodup.
    - intros c c' x _ _ A B. apply in_flat_map in A as (D & A & A'). apply in_flat_map in B as (D' & B & B'). apply filter_In in A as (_ & A). apply filter_In in B as (_ & B). apply Nat.eqb_eq in A, B. apply in_map_iff in A' as (a & <- & _). apply in_map_iff in B' as (b & E & _). congruence.
  Qed.
  Lemma cvert_inj g D l D' l' : In D (MC g) -> l < nv D -> In D' (MC g) -> l' < nv D' -> cvert g D l = cvert g D' l' -> D = D' /\ l = l'.
  Proof. intros X Hl X' Hl' E. destruct (vlist_nth g D l X Hl) as (_ & A & _). destruct (vlist_nth g D' l' X' Hl') as (_ & A' & _). rewrite E, A' in A. now inversion A. Qed.
  Lemma cvert_onto g v : v < base g (CN g) -> exists D l, In D (MC g) /\ l < nv D /\ cvert g D l = v.
  Proof.
    intros Hv. rewrite <- vlist_len in Hv. destruct (nth v (vlist g) ([], 0)) as (D, l) eqn:E. assert (X := nth_In (vlist g) ([], 0) Hv). rewrite E in X. apply vlist_in in X as (X & Hl). exists D, l. split; auto. split; auto. destruct (vlist_nth g D l X Hl) as (A & B & _). rewrite <- vlist_len in A. apply (proj1 (NoDup_nth (vlist g) ([], 0)) (vlist_nodup g)); auto. congruence.
  Qed.
  (** position within the class: the same on all processes *)
  Lemma cnr_blk g D : g < ng -> In D (MC g) -> filter (fun D' => cnr g D' =? cnr g D) (MC g) = blk g (cset D).
  Proof.
    intros Hg X. apply filter_ext_in. intros D' X'. destruct (list_eqb (cset D') (cset D)) eqn:E. apply list_eqb_eq in E. apply Nat.eqb_eq. now apply cnr_iff. apply Nat.eqb_neq. intros Y. apply cnr_iff in Y; auto. rewrite Y, list_eqb_refl in E. discriminate.
  Qed.
  Lemma offs_blk g D : g < ng -> In D (MC g) -> offs g (mnr g D) = list_sum (map nv (firstn (idx list_eqb D (blk g (cset D))) (blk g (cset D)))).
  Proof.
    intros Hg X. rewrite <- cnr_blk by auto. destruct (offs_prefix g D X) as (l2 & EP). unfold offs. destruct (mnr_ok H groups g D X) as (M1 & M2). rewrite M2. rewrite EP at 2. rewrite EP. 
    assert (NI : ~ In D (filter (fun D' => cnr g D' =? cnr g D) (firstn (mnr g D) (MC g)))). { assert (ND : NoDup (filter (fun D' => cnr g D' =? cnr g D) (MC g))) by apply NoDup_filter, MC_nodup. rewrite EP in ND. apply NoDup_remove_2 in ND. intros Y. apply ND, in_app_iff. auto. }
    rewrite idx_app; auto. 2: apply list_eqb_eq. now rewrite firstn_app, Nat.sub_diag, firstn_all, app_nil_r.
  Qed.
  Lemma offs_shared g g' D : g < ng -> g' < ng -> In D (MC g) -> In D (MC g') -> offs g (mnr g D) = offs g' (mnr g' D) /\ cnt g (cnr g D) = cnt g' (cnr g' D).
  Proof.
    intros Hg Hg' X X'. rewrite !offs_blk by auto. unfold cnt. rewrite !cnr_blk by auto. rewrite (blk_shared g g' (cset D)); auto; now apply MC_gof.
  Qed.
End GC2.
