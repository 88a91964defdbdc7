(** Positions of the edges of the new mesh. *)
From Verif Require Import Base EQCModel UtilProofs EQCProofs EQCProofs2 EQCProofs3 EQCProps AggMapModel AggMapProofs ReduceModel ReduceProps GCModel GCProofs GCProofs2 GEModel GEProofs GEProofs2 GEProofs3 GEProofs4.
Local Open Scope nat_scope.

Lemma filt_shift {A} (P : A -> bool) a (L : list A) d l : map (fun i => nth i (a :: L) d) (filter (fun i => P (nth i (a :: L) d)) (map S l)) = map (fun i => nth i L d) (filter (fun i => P (nth i L d)) l).
Proof. induction l as [|x l IH]; auto. cbn [map filter]. change (nth (S x) (a :: L) d) with (nth x L d). destruct (P (nth x L d)); cbn [map]; rewrite IH; reflexivity. Qed.
Lemma filt_seq {A} (P : A -> bool) (L : list A) d : map (fun i => nth i L d) (filter (fun i => P (nth i L d)) (seq 0 (length L))) = filter P L.
Proof.
  induction L as [|a L IH]; auto. cbn [length seq]. rewrite <- seq_shift. cbn [filter]. change (nth 0 (a :: L) d) with a. destruct (P a) eqn:EP; cbn [map]; rewrite filt_shift, IH; reflexivity.
Qed.
Lemma flat_seq_nth {A} (f : nat -> list A) n c k d : c < n -> k < length (f c) -> nth (sg (fun c => length (f c)) c + k) (flat_map f (seq 0 n)) d = nth k (f c) d /\ sg (fun c => length (f c)) c + k < length (flat_map f (seq 0 n)).
Proof.
  intros Hc Hk. rewrite (seq_split_at c n Hc). unfold sg. rewrite <- flat_len. split. now apply flat_app. rewrite flat_map_app, app_length. cbn [flat_map]. rewrite app_length. lia.
Qed.
Lemma flat_seq_len {A} (f : nat -> list A) n : length (flat_map f (seq 0 n)) = sg (fun c => length (f c)) n.
Proof. unfold sg. apply flat_len. Qed.
Lemma filter_map_s {A B} (P : B -> bool) (h : A -> B) l : filter P (map h l) = map h (filter (fun x => P (h x)) l).
Proof. induction l as [|a l IH]; auto. cbn. destruct (P (h a)); cbn; congruence. Qed.

Section GE5.
  Variables (H : list (list (list nat))) (groups : list (list nat)).
  Hypothesis HW : world H.
  Notation np := (length H).
  Notation ng := (length groups).
  Notation grp g := (nth g groups []).
  Hypothesis G_rank : forall g p, g < ng -> In p (grp g) -> p < np.
  Hypothesis G_all : forall p, p < np -> exists g, g < ng /\ In p (grp g).
  Hypothesis G_one : forall g g' p, g < ng -> g' < ng -> In p (grp g) -> In p (grp g') -> g = g'.
  Hypothesis G_ne : forall g, g < ng -> grp g <> [].
  Hypothesis G_sort : forall g, g < ng -> sset (grp g).
  Notation MC := (MC H groups).
  Notation cset := (cset groups).
  Notation crow := (crow groups).
  Notation ctab_of := (ctab_of H groups).
  Notation mnr := (mnr H groups).
  Notation cnr := (cnr H groups).
  Notation cl := (cl H groups).
  Variable V : list (list (list nat)).
  Hypothesis V_len : forall r, r < np -> length (nth r V []) = length (nth r H []).
  Notation nv := (nv H V).
  Notation CN g := (length (ctab_of g)).
  Notation MN g := (length (MC g)).
  Notation CT := (CT H groups).
  Notation iv := (iv H groups V).
  Notation isv := (isv H groups V).
  Notation ise := (ise H groups V).
  Notation sp := (sp H groups V).
  Notation qd := (qd H groups V).
  Notation cE := (cE H groups).
  Notation isec := (isec groups).
  Notation dsp_ok := (dsp_ok H groups V).

  Variables (EI EC : list (list (list fedge))) (gvr : nat -> nat -> gv) (ei ec : list nat -> list ge).
  Notation gf := (gf gvr).
  Notation row T r j := (nth j (nth r T []) []).
  Hypothesis EI_len : forall r, r < np -> length (nth r EI []) = length (nth r H []).
  Hypothesis EC_len : forall r, r < np -> length (nth r EC []) = length (nth r H []).
  Hypothesis E_ei : forall r j, r < np -> j < length (nth r H []) -> map (gf r) (row EI r j) = ei (nth j (classes H r) []).
  Hypothesis E_ec : forall r j, r < np -> j < length (nth r H []) -> map (gf r) (row EC r j) = ec (nth j (classes H r) []).
  Hypothesis ei_ok : forall r D e, r < np -> In D (classes H r) -> In e (ei D) -> fst (fst e) = D /\ fst (snd e) = D /\ snd (fst e) < nv D /\ snd (snd e) < nv D.
  Hypothesis ec_ok : forall r D e, r < np -> In D (classes H r) -> In e (ec D) -> In (fst (fst e)) (classes H r) /\ In (fst (snd e)) (classes H r) /\ snd (fst e) < nv (fst (fst e)) /\ snd (snd e) < nv (fst (snd e)).
  Hypothesis closed : forall g A B, g < ng -> In A (MC g) -> In B (MC g) -> exists D, In D (MC g) /\ cset D = isec A B.
  Notation tg := (tg groups).
  Notation same := (same groups).
  Notation hit := (hit groups).
  Notation ci := (ci groups).
  Notation cc := (cc groups).
  Notation ci_i := (ci_i groups).
  Notation an_i := (an_i groups).
  Notation items := (items H groups V ec).
  Notation inv := (inv H groups V).
  Hypothesis ec_det : forall r D e, r < np -> In D (classes H r) -> In e (ec D) -> (forall x, In x D <-> In x (fst (fst e)) /\ In x (fst (snd e))) /\ fst (fst e) <> fst (snd e).
  Hypothesis ec_nd : forall r D, r < np -> In D (classes H r) -> NoDup (ec D).
  Hypothesis ec_sw : forall r D e, r < np -> In D (classes H r) -> In e (ec D) -> ~ In (snd e, fst e) (ec D).
  Hypothesis ei_nd : forall r D, r < np -> In D (classes H r) -> NoDup (ei D).
  Hypothesis ei_sw : forall r D e, r < np -> In D (classes H r) -> In e (ei D) -> ~ In (snd e, fst e) (ei D).
  Notation AG := (AG H groups V ec).
  Notation nci := (nci groups ec).
  Notation ncc := (ncc groups ec).
  Notation nan := (nan groups ec).
  Notation ecs_of := (ecs_of groups EC).
  Notation ees_of := (ees_of groups EI).
  Notation is_sender := (is_sender H groups).
  Notation mslot g s := (mnr g (cl g (fst s) (snd s))).
  Notation cslot g s := (cnr g (cl g (fst s) (snd s))).
  Definition Dm (g m : nat) : list nat := nth m (MC g) [].
  Definition mcl (g : nat) : list nat := map (cnr g) (MC g).
  Definition fII (g m : nat) : list ge := map (sp g) (ei (Dm g m)).
  Definition fCI (g m : nat) : list ge := map (sp g) (filter (ci (Dm g m)) (ec (Dm g m))).
  Definition fCC (g m : nat) : list ge := map (sp g) (filter (cc (Dm g m)) (ec (Dm g m))).
  Definition ms (g c : nat) : list nat := filter (fun i => nth i (mcl g) 0 =? c) (seq 0 (length (mcl g))).
  Definition Ec (g c : nat) : list nat := members g (nth c (ctab_of g) []).
  Definition ld (E : list nat) : nat := lead (map qd (AG E)).
  Definition AI (E : list nat) : list ge := firstn (ld E) (AG E).
  Definition AC (E : list nat) : list ge := skipn (ld E) (AG E).
  Definition LII (g c : nat) : list ge := flat_map (fII g) (ms g c).
  Definition LCI (g c : nat) : list ge := flat_map (fCI g) (ms g c).
  Definition LCC (g c : nat) : list ge := flat_map (fCC g) (ms g c).
  Definition in1 (g c : nat) : list ge := LII g c ++ LCI g c ++ AI (Ec g c).
  Definition in2 (g c : nat) : list ge := LCC g c ++ AC (Ec g c).
  Definition CL1 (g : nat) : list ge := flat_map (in1 g) (seq 0 (CN g)).
  Definition CL2 (g : nat) : list ge := flat_map (in2 g) (seq 0 (CN g)).
  Definition CL (g : nat) : list ge := CL1 g ++ CL2 g.
  Definition X5 (g : nat) : list c5 := map (fun c => mk5 (length (LII g c)) (length (LCI g c)) (length (AI (Ec g c))) (length (LCC g c)) (length (AC (Ec g c)))) (seq 0 (CN g)).
  Lemma mcl_len g : length (mcl g) = MN g. Proof. apply map_length. Qed.
  Lemma mcl_nth g m : m < MN g -> nth m (mcl g) 0 = cnr g (Dm g m). Proof. intros Hm. unfold mcl. now rewrite (nth_map_ok _ _ _ []). Qed.
  Lemma ms_map g c : map (Dm g) (ms g c) = filter (fun D => cnr g D =? c) (MC g).
  Proof.
    rewrite <- (filt_seq _ (MC g) []). unfold ms, Dm. rewrite mcl_len. f_equal. apply filter_ext_in. intros i X. apply in_seq in X. rewrite mcl_nth by lia. reflexivity.
  Qed.
  Lemma ms_sum g c (h : list nat -> nat) : list_sum (map (fun m => h (Dm g m)) (ms g c)) = list_sum (map h (filter (fun D => cnr g D =? c) (MC g))).
  Proof. rewrite <- ms_map, map_map. reflexivity. Qed.
  Lemma ms_flat {A} g c (h : list nat -> list A) : flat_map (fun m => h (Dm g m)) (ms g c) = flat_map h (filter (fun D => cnr g D =? c) (MC g)).
  Proof. rewrite <- ms_map. rewrite !flat_map_concat_map, map_map. reflexivity. Qed.
  Lemma ms_in g c m : In m (ms g c) <-> m < MN g /\ cnr g (Dm g m) = c.
  Proof. unfold ms. rewrite filter_In, in_seq, mcl_len, Nat.eqb_eq. split; intros (A & B). rewrite mcl_nth in B by lia. split; [lia|auto]. rewrite mcl_nth by lia. split; [lia|auto]. Qed.
  Lemma Ec_cset g D : g < ng -> In D (MC g) -> Ec g (cnr g D) = cset D.
  Proof. intros Hg X. destruct (cnr_ok H groups g D X) as (_ & C2). unfold Ec. rewrite C2. now apply (members_crow H groups HW G_rank G_one). Qed.
  Lemma class_D g c : c < CN g -> exists D, In D (MC g) /\ cnr g D = c.
  Proof. intros Hc. assert (Y := nth_In (ctab_of g) [] Hc). apply ctab_in in Y as (D & Y1 & Y2). exists D. split; auto. destruct (cnr_ok H groups g D Y1) as (C1 & C2). apply (proj1 (NoDup_nth (ctab_of g) []) (ctab_nodup H groups g)); auto. congruence. Qed.
  Lemma X5_len g : length (X5 g) = CN g. Proof. unfold X5. now rewrite map_length, seq_length. Qed.
  Lemma X5_nth g c : c < CN g -> nth c (X5 g) z5 = mk5 (length (LII g c)) (length (LCI g c)) (length (AI (Ec g c))) (length (LCC g c)) (length (AC (Ec g c))).
  Proof. intros Hc. unfold X5. rewrite (nth_map_ok _ _ _ 0) by now rewrite seq_length. now rewrite seq_nth. Qed.
  Lemma b3_ok g c : c <= CN g -> b3 (X5 g) c = sg (fun c => length (in1 g c)) c.
  Proof. intros Hc. unfold b3. apply sg_ext. intros i Hi. rewrite X5_nth by lia. cbn [n_ii n_ci n_ia]. unfold in1. rewrite !app_length. lia. Qed.
  Lemma b2_ok g c : c <= CN g -> b2 (X5 g) c = sg (fun c => length (in2 g c)) c.
  Proof. intros Hc. unfold b2. apply sg_ext. intros i Hi. rewrite X5_nth by lia. cbn [n_cc n_ca]. unfold in2. rewrite !app_length. lia. Qed.
  Lemma CL1_len g : length (CL1 g) = b3 (X5 g) (CN g). Proof. rewrite b3_ok by lia. apply flat_seq_len. Qed.
  Lemma CL2_len g : length (CL2 g) = b2 (X5 g) (CN g). Proof. rewrite b2_ok by lia. apply flat_seq_len. Qed.
  Lemma CL1_nth g c k d : c < CN g -> k < length (in1 g c) -> nth (b3 (X5 g) c + k) (CL g) d = nth k (in1 g c) d /\ b3 (X5 g) c + k < length (CL1 g).
  Proof. intros Hc Hk. rewrite b3_ok by lia. destruct (flat_seq_nth (in1 g) (CN g) c k d Hc Hk) as (A & B). split; auto. unfold CL. rewrite app_nth1; auto. Qed.
  Lemma CL2_nth g c k d : c < CN g -> k < length (in2 g c) -> nth (length (CL1 g) + (b2 (X5 g) c + k)) (CL g) d = nth k (in2 g c) d /\ b2 (X5 g) c + k < length (CL2 g).
  Proof. intros Hc Hk. rewrite b2_ok by lia. destruct (flat_seq_nth (in2 g) (CN g) c k d Hc Hk) as (A & B). split; auto. unfold CL. rewrite app_nth2 by lia. rewrite Nat.add_comm, Nat.add_sub. auto. Qed.
  Definition ok_at (g p : nat) (e : ge) : Prop := p < length (CL g) /\ forall d, nth p (CL g) d = e.
  Notation psm g f m := (psum (mcl g) (fun m => length (f g m)) m).
  Lemma pos_ii g m i d : m < MN g -> i < length (fII g m) -> ok_at g (b3 (X5 g) (cnr g (Dm g m)) + psm g fII m + i) (nth i (fII g m) d).
  Proof.
    intros Hm Hi. assert (Hc : cnr g (Dm g m) < CN g) by (apply cnr_ok; now apply nth_In). assert (Hm' : m < length (mcl g)) by now rewrite mcl_len. pose proof (block_lt (mcl g) (fII g) m i Hm' Hi) as BL. rewrite (mcl_nth g m Hm) in BL. fold (ms g (cnr g (Dm g m))) in BL. fold (LII g (cnr g (Dm g m))) in BL.
    assert (K : psm g fII m + i < length (in1 g (cnr g (Dm g m)))) by (unfold in1; rewrite app_length; lia). split. destruct (CL1_nth g _ _ d Hc K) as (_ & B). unfold CL. rewrite app_length. lia. intros d'. rewrite <- Nat.add_assoc. destruct (CL1_nth g _ _ d' Hc K) as (A & B). rewrite A. unfold in1. rewrite app_nth1 by auto. pose proof (block_nth (mcl g) (fII g) m i d' Hm' Hi) as BN. rewrite (mcl_nth g m Hm) in BN. unfold LII, ms. rewrite BN. now apply nth_indep.
  Qed.
  Lemma pos_ci g m i d : m < MN g -> i < length (fCI g m) -> ok_at g (b3 (X5 g) (cnr g (Dm g m)) + length (LII g (cnr g (Dm g m))) + psm g fCI m + i) (nth i (fCI g m) d).
  Proof.
    intros Hm Hi. assert (Hc : cnr g (Dm g m) < CN g) by (apply cnr_ok; now apply nth_In). assert (Hm' : m < length (mcl g)) by now rewrite mcl_len. pose proof (block_lt (mcl g) (fCI g) m i Hm' Hi) as BL. rewrite (mcl_nth g m Hm) in BL. fold (ms g (cnr g (Dm g m))) in BL. fold (LCI g (cnr g (Dm g m))) in BL.
    set (c := cnr g (Dm g m)) in *. assert (K : length (LII g c) + (psm g fCI m + i) < length (in1 g c)) by (unfold in1; rewrite !app_length; lia). replace (b3 (X5 g) c + length (LII g c) + psm g fCI m + i) with (b3 (X5 g) c + (length (LII g c) + (psm g fCI m + i))) by lia. split. destruct (CL1_nth g _ _ d Hc K) as (_ & B). unfold CL. rewrite app_length. lia. intros d'. destruct (CL1_nth g _ _ d' Hc K) as (A & B). rewrite A. unfold in1. rewrite app_nth2_plus, app_nth1 by auto. pose proof (block_nth (mcl g) (fCI g) m i d' Hm' Hi) as BN. rewrite (mcl_nth g m Hm) in BN. fold c in BN. unfold LCI, ms. rewrite BN. now apply nth_indep.
  Qed.
  Lemma pos_cc g m i d : m < MN g -> i < length (fCC g m) -> ok_at g (length (CL1 g) + (b2 (X5 g) (cnr g (Dm g m)) + psm g fCC m) + i) (nth i (fCC g m) d).
  Proof.
    intros Hm Hi. assert (Hc : cnr g (Dm g m) < CN g) by (apply cnr_ok; now apply nth_In). assert (Hm' : m < length (mcl g)) by now rewrite mcl_len. pose proof (block_lt (mcl g) (fCC g) m i Hm' Hi) as BL. rewrite (mcl_nth g m Hm) in BL. fold (ms g (cnr g (Dm g m))) in BL. fold (LCC g (cnr g (Dm g m))) in BL.
    set (c := cnr g (Dm g m)) in *. assert (K : psm g fCC m + i < length (in2 g c)) by (unfold in2; rewrite !app_length; lia). replace (length (CL1 g) + (b2 (X5 g) c + psm g fCC m) + i) with (length (CL1 g) + (b2 (X5 g) c + (psm g fCC m + i))) by lia. split. destruct (CL2_nth g _ _ d Hc K) as (_ & B). unfold CL. rewrite app_length. lia. intros d'. destruct (CL2_nth g _ _ d' Hc K) as (A & B). rewrite A. unfold in2. rewrite app_nth1 by auto. pose proof (block_nth (mcl g) (fCC g) m i d' Hm' Hi) as BN. rewrite (mcl_nth g m Hm) in BN. fold c in BN. unfold LCC, ms. rewrite BN. now apply nth_indep.
  Qed.
  Lemma pos_ia g c i d : c < CN g -> i < length (AI (Ec g c)) -> ok_at g (b3 (X5 g) c + length (LII g c) + length (LCI g c) + i) (nth i (AI (Ec g c)) d).
  Proof.
    intros Hc Hi. assert (K : length (LII g c) + (length (LCI g c) + i) < length (in1 g c)) by (unfold in1; rewrite !app_length; lia). replace (b3 (X5 g) c + length (LII g c) + length (LCI g c) + i) with (b3 (X5 g) c + (length (LII g c) + (length (LCI g c) + i))) by lia. split. destruct (CL1_nth g _ _ d Hc K) as (_ & B). unfold CL. rewrite app_length. lia. intros d'. destruct (CL1_nth g _ _ d' Hc K) as (A & B). rewrite A. unfold in1. rewrite !app_nth2_plus. now apply nth_indep.
  Qed.
  Lemma pos_ca g c i d : c < CN g -> i < length (AC (Ec g c)) -> ok_at g (length (CL1 g) + (b2 (X5 g) c + length (LCC g c)) + i) (nth i (AC (Ec g c)) d).
  Proof.
    intros Hc Hi. assert (K : length (LCC g c) + i < length (in2 g c)) by (unfold in2; rewrite !app_length; lia). replace (length (CL1 g) + (b2 (X5 g) c + length (LCC g c)) + i) with (length (CL1 g) + (b2 (X5 g) c + (length (LCC g c) + i))) by lia. split. destruct (CL2_nth g _ _ d Hc K) as (_ & B). unfold CL. rewrite app_length. lia. intros d'. destruct (CL2_nth g _ _ d' Hc K) as (A & B). rewrite A. unfold in2. rewrite !app_nth2_plus. now apply nth_indep.
  Qed.
  (** *** counters *)
  Lemma row_lens g k j : g < ng -> k < length (grp g) -> j < length (nth (nth k (grp g) 0) H []) -> length (row EI (nth k (grp g) 0) j) = length (ei (cl g k j)) /\ length (row EC (nth k (grp g) 0) j) = length (ec (cl g k j)).
  Proof. intros Hg Hk Hj. assert (Hr : nth k (grp g) 0 < np) by (apply (G_rank g); auto; now apply nth_In). unfold GCProofs.cl. rewrite <- (E_ei _ j), <- (E_ec _ j) by auto. now rewrite !map_length. Qed.
  Lemma len_CI g m : length (fCI g m) = nci (Dm g m). Proof. unfold fCI. now rewrite map_length. Qed.
  Lemma len_CC g m : length (fCC g m) = ncc (Dm g m). Proof. unfold fCC. now rewrite map_length. Qed.
  Lemma len_II g m : length (fII g m) = length (ei (Dm g m)). Proof. unfold fII. now rewrite map_length. Qed.
  Definition ae_ok (g : nat) (ae : list (list quad)) : Prop := length ae = CN g /\ forall c, c < CN g -> nth c ae [] = map qd (AG (Ec g c)) /\ infirst (map qd (AG (Ec g c))).
  Lemma ac_nth g ae c : ae_ok g ae -> c < CN g -> nth c (annoy_count ae) (0, 0) = (length (AI (Ec g c)), length (AC (Ec g c))) /\ length (AI (Ec g c)) = ld (Ec g c).
  Proof.
    intros (L & A) Hc. destruct (A c Hc) as (A1 & A2). destruct (lead_ok _ A2) as (B1 & _). unfold annoy_count. rewrite (nth_map_ok _ _ _ []) by lia. rewrite A1. fold (ld (Ec g c)) in *. unfold AI, AC. rewrite firstn_length, skipn_length. rewrite map_length in *. split. f_equal; lia. lia.
  Qed.
  Definition fix5 (g c : nat) (x : c5) : Prop := n_ci x = length (LCI g c) /\ n_ia x = length (AI (Ec g c)) /\ n_ca x = length (AC (Ec g c)).
  Lemma count_all_ok g St ae : g < ng -> inv g St (items g) -> ae_ok g ae -> exists ii cc, count_all (grp g) (contr H groups g) St (annoy_count ae) (ees_of g) (ecs_of g) = Ret (ii, cc, X5 g) /\ length ii = MN g /\ length cc = MN g /\ (forall m, m < MN g -> nth m ii 0 = length (fII g m)) /\ (forall m, m < MN g -> nth m cc 0 = length (fCC g m)).
  Proof.
    intros Hg HI HA. destruct (have_ok H groups HW G_rank G_sort V V_len ec g St Hg HI) as (N1 & N2 & N3 & _). destruct HI as (_ & (I2 & _) & (I3 & _) & (I4 & _) & _). unfold count_all. cbn [c_om c_oc c_tab c_mc contr]. rewrite map_length. rewrite (ecs_slots H groups G_rank V V_len EC EC_len) by auto.
    match goal with |- context [foldM ?f _ _] => set (F := f) end.
    assert (LA : length (annoy_count ae) = CN g) by (unfold annoy_count; rewrite map_length; apply HA).
    assert (K : forall l, incl l (tslots (evs_of groups V g)) -> forall (ii cc : list nat) (cts : list c5), length ii = MN g -> length cc = MN g -> length cts = CN g -> exists ii' cc' cts', foldM F l (ii, cc, cts) = Ret (ii', cc', cts') /\ length ii' = MN g /\ length cc' = MN g /\ length cts' = CN g /\
      (forall m, m < MN g -> (exists s, In s (filter (is_sender g) l) /\ mslot g s = m) \/ nth m ii 0 = length (fII g m) -> nth m ii' 0 = length (fII g m)) /\
      (forall m, m < MN g -> (exists s, In s (filter (is_sender g) l) /\ mslot g s = m) \/ nth m cc 0 = length (fCC g m) -> nth m cc' 0 = length (fCC g m)) /\
      (forall c, c < CN g -> n_ii (nth c cts' z5) = n_ii (nth c cts z5) + list_sum (map (fun s => length (ei (cl g (fst s) (snd s)))) (filter (fun s => cslot g s =? c) (filter (is_sender g) l))) /\ n_cc (nth c cts' z5) = n_cc (nth c cts z5) + list_sum (map (fun s => ncc (cl g (fst s) (snd s))) (filter (fun s => cslot g s =? c) (filter (is_sender g) l)))) /\
      (forall c, c < CN g -> (exists s, In s (filter (is_sender g) l) /\ cslot g s = c) \/ fix5 g c (nth c cts z5) -> fix5 g c (nth c cts' z5))).
    { induction l as [|(k, j) l IH]; intros HL ii cc cts L1 L2 L3; cbn [foldM].
      - exists ii, cc, cts. split; [reflexivity|]. split; [auto|]. split; [auto|]. split; [auto|]. split; [|split; [|split]].
        + intros m Hm [(s & [] & _)|Y]; auto. + intros m Hm [(s & [] & _)|Y]; auto. + intros c Hc. cbn [filter map list_sum fold_right]. unfold list_sum. cbn [fold_right]. split; lia. + intros c Hc Y. destruct Y as [(s & [] & _)|Y]; exact Y.
      - destruct (proj1 (vslot H groups G_rank V V_len g k j Hg) (HL _ ltac:(now left))) as (Hk & Hj). assert (DM := cl_in H groups g k j Hk Hj). destruct (mnr_ok H groups g _ DM) as (M1 & M2). destruct (cnr_ok H groups g _ DM) as (C1 & C2). destruct (row_lens g k j Hg Hk Hj) as (R1 & R2).
        set (D := cl g k j) in *. set (m := mnr g D) in *. set (c := cnr g D) in *. destruct (ac_nth g ae c HA C1) as (A1 & _).
        assert (EF : F (ii, cc, cts) (k, j) = if is_sender g (k, j) then Ret (upd ii m (length (ei D)), upd cc m (ncc D), upd cts c (mk5 (n_ii (nth c cts z5) + length (ei D)) (length (LCI g c)) (length (AI (Ec g c))) (n_cc (nth c cts z5) + ncc D) (length (AC (Ec g c))))) else Ret (ii, cc, cts)).
        { unfold F. rewrite (om_read H groups) by auto. cbn [bind fst]. fold D. fold m. rewrite (rd_ok _ _ 0) by now rewrite map_length. cbn [bind]. rewrite (nth_map_ok _ _ _ []) by auto. rewrite M2. fold c. rewrite (rd_ok _ _ None) by (unfold senders; cbn [c_mmems contr]; now rewrite map_length). cbn [bind]. rewrite (rd_ok _ _ 0) by auto. cbn [bind].
          unfold senders. cbn [c_mmems contr]. rewrite (nth_map_ok _ _ _ []) by auto. rewrite M2. change (oeqb (Some (nth k (grp g) 0)) (cut_min D (grp g))) with (is_sender g (k, j)). destruct (is_sender g (k, j)); auto.
          rewrite (ee_read H groups G_rank EI EI_len) by auto. cbn [bind]. rewrite (ec_read H groups G_rank EC EC_len) by auto. cbn [bind]. rewrite (rd_ok _ _ z5) by lia. cbn [bind]. rewrite (rd_ok _ _ 0) by lia. cbn [bind]. rewrite (rd_ok _ _ (0, 0)) by lia. cbn [bind]. rewrite (rd_ok _ _ 0) by lia. cbn [bind]. rewrite (rd_ok _ _ 0) by lia. cbn [bind]. rewrite N1, N2, N3 by auto. rewrite M2. rewrite R1, R2. rewrite (n_total groups ec D). repeat (rewrite wr_ok by lia; cbn [bind]).
          rewrite A1. cbn [fst snd]. do 4 f_equal. f_equal. unfold LCI. rewrite flat_len. rewrite (map_ext (fun x => length (fCI g x)) (fun x => nci (Dm g x))) by (intros; apply len_CI). rewrite ms_sum. reflexivity. }
        rewrite EF. cbn [filter]. destruct (is_sender g (k, j)) eqn:ES; cbn [bind].
        + destruct (IH ltac:(intros z Z; apply HL; now right) (upd ii m (length (ei D))) (upd cc m (ncc D)) (upd cts c (mk5 (n_ii (nth c cts z5) + length (ei D)) (length (LCI g c)) (length (AI (Ec g c))) (n_cc (nth c cts z5) + ncc D) (length (AC (Ec g c))))) ltac:(now rewrite upd_length) ltac:(now rewrite upd_length) ltac:(now rewrite upd_length)) as (i' & c' & t' & E & Q1 & Q2 & Q3 & Q4 & Q5 & Q6 & Q7).
          exists i', c', t'. split; auto. split; auto. split; auto. split; auto. split; [|split; [|split]].
          * intros m' Hm Y. apply Q4; auto. destruct (Nat.eq_dec m m') as [<-|NE]. right. rewrite nth_upd_eq by lia. rewrite len_II. unfold Dm. now rewrite M2. rewrite nth_upd_neq by auto. destruct Y as [(s & [<-|Y] & e)|Y]; auto. exfalso. apply NE. exact e. left. exists s. auto.
          * intros m' Hm Y. apply Q5; auto. destruct (Nat.eq_dec m m') as [<-|NE]. right. rewrite nth_upd_eq by lia. rewrite len_CC. unfold Dm. now rewrite M2. rewrite nth_upd_neq by auto. destruct Y as [(s & [<-|Y] & e)|Y]; auto. exfalso. apply NE. exact e. left. exists s. auto.
          * intros c0 Hc. destruct (Q6 c0 Hc) as (U1 & U2). cbn [filter fst snd]. fold D. fold c. destruct (Nat.eqb_spec c c0) as [<-|NE]. rewrite nth_upd_eq in U1, U2 by lia. cbn [n_ii n_cc] in U1, U2. cbn [map list_sum fold_right fst snd]. fold D. unfold list_sum in *. lia. rewrite nth_upd_neq in U1, U2 by auto. auto.
          * intros c0 Hc Y. apply Q7; auto. destruct (Nat.eq_dec c c0) as [<-|NE]. right. rewrite nth_upd_eq by lia. split; auto. rewrite nth_upd_neq by auto. destruct Y as [(s & [<-|Y] & e)|Y]; auto. exfalso. apply NE. exact e. left. exists s. auto.
        + apply IH; auto. intros z Z; apply HL; now right. }
    destruct (K (tslots (evs_of groups V g)) ltac:(intros z; auto) (repeat 0 (MN g)) (repeat 0 (MN g)) (repeat z5 (CN g)) (repeat_length _ _) (repeat_length _ _) (repeat_length _ _)) as (ii & cc & cts & E & L1 & L2 & L3 & A1 & A2 & A3 & A4).
    assert (SL : forall D, In D (MC g) -> exists s, In s (filter (is_sender g) (tslots (evs_of groups V g))) /\ cl g (fst s) (snd s) = D). { intros D XD. assert (Y := Permutation_in _ (Permutation_sym (sslots_perm H groups HW G_rank G_sort V V_len g Hg)) XD). apply in_map_iff in Y as (s & Y1 & Y2). eauto. }
    assert (SM : forall c (h : list nat -> nat), list_sum (map (fun s => h (cl g (fst s) (snd s))) (filter (fun s => cslot g s =? c) (filter (is_sender g) (tslots (evs_of groups V g))))) = list_sum (map h (filter (fun D => cnr g D =? c) (MC g)))).
    { intros c h. rewrite <- (sum_perm _ _ (Permutation_map h (filter_perm _ _ _ (sslots_perm H groups HW G_rank G_sort V V_len g Hg)))). rewrite filter_map_s, map_map. reflexivity. }
    assert (EX : cts = X5 g).
    { apply (nth_ext_eq _ _ z5). now rewrite X5_len. rewrite L3. intros c Hc. rewrite X5_nth by auto. destruct (A3 c Hc) as (U1 & U2). rewrite nth_repeat in U1, U2. cbn [n_ii n_cc Nat.add] in U1, U2. rewrite (SM c (fun D => length (ei D))) in U1. rewrite (SM c ncc) in U2.
      destruct (A4 c Hc) as (U3 & U4 & U5). { left. destruct (class_D g c Hc) as (D & XD & ED). destruct (SL D XD) as (s & S1 & S2). exists s. split; auto. now rewrite S2. }
      destruct (nth c cts z5) as [a1 a2 a3 a4 a5]. cbn [n_ii n_ci n_ia n_cc n_ca] in *. f_equal; auto. rewrite U1. unfold LII. rewrite flat_len. rewrite (map_ext (fun x => length (fII g x)) (fun x => length (ei (Dm g x)))) by (intros; apply len_II). symmetry. apply (ms_sum g c (fun D => length (ei D))). rewrite U2. unfold LCC. rewrite flat_len. rewrite (map_ext (fun x => length (fCC g x)) (fun x => ncc (Dm g x))) by (intros; apply len_CC). symmetry. apply (ms_sum g c ncc). }
    exists ii, cc. rewrite <- EX. split; auto. split; auto. split; auto. split.
    - intros m Hm. apply A1; auto. left. destruct (SL (Dm g m) (nth_In _ _ Hm)) as (s & S1 & S2). exists s. split; auto. rewrite S2. now apply mnr_nth.
    - intros m Hm. apply A2; auto. left. destruct (SL (Dm g m) (nth_In _ _ Hm)) as (s & S1 & S2). exists s. split; auto. rewrite S2. now apply mnr_nth.
  Qed.
End GE5.
