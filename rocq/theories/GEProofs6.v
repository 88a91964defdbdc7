(** The edges of the new mesh: each once, and in the class of the groups that share both ends. *)
From Verif Require Import Base EQCModel UtilProofs EQCProofs EQCProofs2 EQCProofs3 EQCProps AggMapModel AggMapProofs ReduceModel ReduceProps GCModel GCProofs GCProofs2 GEModel GEProofs GEProofs2 GEProofs3 GEProofs4 GEProofs5.
Local Open Scope nat_scope.

Lemma quad_eqb_eq a b : quad_eqb a b = true <-> a = b.
Proof.
  unfold quad_eqb. rewrite !andb_true_iff, !Nat.eqb_eq. destruct a as ((a1 & a2) & (a3 & a4)), b as ((b1 & b2) & (b3 & b4)). cbn [fst snd]. split. intros (((-> & ->) & ->) & ->). auto. intros E. now injection E as -> -> -> ->.
Qed.
Lemma NoDup_app_l {A} (a b : list A) : NoDup (a ++ b) -> NoDup a.
Proof. induction a as [|x a IH]; intros ND; constructor; inversion ND; subst; auto. intros X. apply H1. apply in_or_app. auto. Qed.
Lemma NoDup_app_r {A} (a b : list A) : NoDup (a ++ b) -> NoDup b.
Proof. induction a as [|x a IH]; auto. intros ND. inversion ND; auto. Qed.
Lemma nodup_app3 {A} (a b c : list A) : NoDup a -> NoDup b -> NoDup c -> (forall x, In x a -> In x b -> False) -> (forall x, In x a -> In x c -> False) -> (forall x, In x b -> In x c -> False) -> NoDup (a ++ b ++ c).
Proof. intros HA HB HC AB ACc BC. apply nodup_app; auto. apply nodup_app; auto. intros x X Y. apply in_app_or in Y as [Y|Y]; eauto. Qed.

Section GE6.
  Variables (H : list (list (list nat))) (groups : list (list nat)).
  Hypothesis HW : world H.
  Notation np := (length H).
  Notation ng := (length groups).
  Notation grp g := (nth g groups []).
  Hypothesis G_rank : forall g p, g < ng -> In p (grp g) -> p < np.
  Hypothesis G_all : forall p, p < np -> exists g, g < ng /\ In p (grp g).
  Hypothesis G_one : forall g g' p, g < ng -> g' < ng -> In p (grp g) -> In p (grp g') -> g = g'.
  Hypothesis G_ne : forall g, g < ng -> grp g <> [].
  Hypothesis G_sort : forall g, g < ng -> sset (grp g).
  Notation MC := (MC H groups).
  Notation cset := (cset groups).
  Notation crow := (crow groups).
  Notation ctab_of := (ctab_of H groups).
  Notation mnr := (mnr H groups).
  Notation cnr := (cnr H groups).
  Notation cl := (cl H groups).
  Variable V : list (list (list nat)).
  Hypothesis V_len : forall r, r < np -> length (nth r V []) = length (nth r H []).
  Notation nv := (nv H V).
  Notation CN g := (length (ctab_of g)).
  Notation MN g := (length (MC g)).
  Notation CT := (CT H groups).
  Notation iv := (iv H groups V).
  Notation isv := (isv H groups V).
  Notation ise := (ise H groups V).
  Notation sp := (sp H groups V).
  Notation qd := (qd H groups V).
  Notation cE := (cE H groups).
  Notation isec := (isec groups).
  Notation dsp_ok := (dsp_ok H groups V).

  Variables (EI EC : list (list (list fedge))) (gvr : nat -> nat -> gv) (ei ec : list nat -> list ge).
  Notation gf := (gf gvr).
  Notation row T r j := (nth j (nth r T []) []).
  Hypothesis EI_len : forall r, r < np -> length (nth r EI []) = length (nth r H []).
  Hypothesis EC_len : forall r, r < np -> length (nth r EC []) = length (nth r H []).
  Hypothesis E_ei : forall r j, r < np -> j < length (nth r H []) -> map (gf r) (row EI r j) = ei (nth j (classes H r) []).
  Hypothesis E_ec : forall r j, r < np -> j < length (nth r H []) -> map (gf r) (row EC r j) = ec (nth j (classes H r) []).
  Hypothesis ei_ok : forall r D e, r < np -> In D (classes H r) -> In e (ei D) -> fst (fst e) = D /\ fst (snd e) = D /\ snd (fst e) < nv D /\ snd (snd e) < nv D.
  Hypothesis ec_ok : forall r D e, r < np -> In D (classes H r) -> In e (ec D) -> In (fst (fst e)) (classes H r) /\ In (fst (snd e)) (classes H r) /\ snd (fst e) < nv (fst (fst e)) /\ snd (snd e) < nv (fst (snd e)).
  Hypothesis closed : forall g A B, g < ng -> In A (MC g) -> In B (MC g) -> exists D, In D (MC g) /\ cset D = isec A B.
  Notation tg := (tg groups).
  Notation same := (same groups).
  Notation hit := (hit groups).
  Notation ci := (ci groups).
  Notation cc := (cc groups).
  Notation ci_i := (ci_i groups).
  Notation an_i := (an_i groups).
  Notation items := (items H groups V ec).
  Notation inv := (inv H groups V).
  Hypothesis ec_det : forall r D e, r < np -> In D (classes H r) -> In e (ec D) -> (forall x, In x D <-> In x (fst (fst e)) /\ In x (fst (snd e))) /\ fst (fst e) <> fst (snd e).
  Hypothesis ec_nd : forall r D, r < np -> In D (classes H r) -> NoDup (ec D).
  Hypothesis ec_sw : forall r D e, r < np -> In D (classes H r) -> In e (ec D) -> ~ In (snd e, fst e) (ec D).
  Hypothesis ei_nd : forall r D, r < np -> In D (classes H r) -> NoDup (ei D).
  Hypothesis ei_sw : forall r D e, r < np -> In D (classes H r) -> In e (ei D) -> ~ In (snd e, fst e) (ei D).
  Notation AG := (AG H groups V ec).
  Notation nci := (nci groups ec).
  Notation ncc := (ncc groups ec).
  Notation nan := (nan groups ec).
  Notation ecs_of := (ecs_of groups EC).
  Notation ees_of := (ees_of groups EI).
  Notation is_sender := (is_sender H groups).
  Notation mslot g s := (mnr g (cl g (fst s) (snd s))).
  Notation cslot g s := (cnr g (cl g (fst s) (snd s))).
  Notation Dm := (Dm H groups).
  Notation mcl := (mcl H groups).
  Notation fII := (fII H groups V ei).
  Notation fCI := (fCI H groups V ec).
  Notation fCC := (fCC H groups V ec).
  Notation ms := (ms H groups).
  Notation Ec := (Ec H groups).
  Notation ld := (ld H groups V ec).
  Notation AI := (AI H groups V ec).
  Notation AC := (AC H groups V ec).
  Notation LII := (LII H groups V ei).
  Notation LCI := (LCI H groups V ec).
  Notation LCC := (LCC H groups V ec).
  Notation in1 := (in1 H groups V ei ec).
  Notation in2 := (in2 H groups V ec).
  Notation CL1 := (CL1 H groups V ei ec).
  Notation CL2 := (CL2 H groups V ec).
  Notation CL := (CL H groups V ei ec).
  Notation X5 := (X5 H groups V ei ec).
  Notation ok_at := (ok_at H groups V ei ec).
  Notation ae_ok := (ae_ok H groups V ec).
  Notation psm g f m := (psum (mcl g) (fun m => length (f g m)) m).
  Notation DMC g m := (nth_In (MC g) [] m).
  Lemma Dm_in g m : m < MN g -> In (Dm g m) (MC g). Proof. intros Hm. now apply nth_In. Qed.
  Lemma Dm_mnr g D : In D (MC g) -> Dm g (mnr g D) = D. Proof. intros X. now apply mnr_ok. Qed.
  Lemma in_flat_ms g c (h : list nat -> list ge) e : In e (flat_map (fun m => h (Dm g m)) (ms g c)) <-> exists D, In D (MC g) /\ cnr g D = c /\ In e (h D).
  Proof.
    rewrite in_flat_map. split.
    - intros (m & X & Y). apply (ms_in H groups) in X as (Hm & C). exists (Dm g m). split; auto. now apply Dm_in.
    - intros (D & X & C & Y). exists (mnr g D). destruct (mnr_ok H groups g D X) as (M1 & M2). split. apply (ms_in H groups). split; auto. rewrite Dm_mnr; auto. rewrite Dm_mnr; auto.
  Qed.
  Lemma LII_in g c e : In e (LII g c) <-> exists D e', In D (MC g) /\ cnr g D = c /\ In e' (ei D) /\ e = sp g e'.
  Proof. unfold GEProofs5.LII, GEProofs5.fII. rewrite (in_flat_ms g c (fun D => map (sp g) (ei D))). split. intros (D & X & C & Y). apply in_map_iff in Y as (e' & <- & Y). eauto 10. intros (D & e' & X & C & Y & ->). exists D. split; auto. split; auto. now apply in_map. Qed.
  Lemma LCI_in g c e : In e (LCI g c) <-> exists D e', In D (MC g) /\ cnr g D = c /\ In e' (ec D) /\ ci D e' = true /\ e = sp g e'.
  Proof. unfold GEProofs5.LCI, GEProofs5.fCI. rewrite (in_flat_ms g c (fun D => map (sp g) (filter (ci D) (ec D)))). split. intros (D & X & C & Y). apply in_map_iff in Y as (e' & <- & Y). apply filter_In in Y as (Y1 & Y2). eauto 10. intros (D & e' & X & C & Y & Z & ->). exists D. split; auto. split; auto. apply in_map. apply filter_In. auto. Qed.
  Lemma LCC_in g c e : In e (LCC g c) <-> exists D e', In D (MC g) /\ cnr g D = c /\ In e' (ec D) /\ cc D e' = true /\ e = sp g e'.
  Proof. unfold GEProofs5.LCC, GEProofs5.fCC. rewrite (in_flat_ms g c (fun D => map (sp g) (filter (cc D) (ec D)))). split. intros (D & X & C & Y). apply in_map_iff in Y as (e' & <- & Y). apply filter_In in Y as (Y1 & Y2). eauto 10. intros (D & e' & X & C & Y & Z & ->). exists D. split; auto. split; auto. apply in_map. apply filter_In. auto. Qed.
  Lemma quad_in_same g e : g < ng -> ise g e -> quad_in (qd e) = same e.
  Proof.
    intros Hg (A & B). unfold quad_in, GEProofs2.qd. cbn [fst snd]. unfold GEProofs3.same. destruct (list_eqb (cset (fst (fst e))) (cset (fst (snd e)))) eqn:E.
    - apply list_eqb_eq in E. rewrite E. apply Nat.eqb_refl. - apply Nat.eqb_neq. intros Q. apply (cid_inj H groups HW G_rank G_all G_one g g) in Q; auto. rewrite Q, list_eqb_refl in E. discriminate. apply A. apply B.
  Qed.
  Definition split_ok (g : nat) : Prop := forall D, In D (MC g) -> infirst (map qd (AG (cset D))).
  Lemma AI_same g D e : g < ng -> split_ok g -> In D (MC g) -> In e (AI (cset D)) -> same e = true /\ In e (AG (cset D)).
  Proof.
    intros Hg HS X Y. destruct (lead_ok _ (HS D X)) as (_ & A & _). assert (Z : In e (AG (cset D))) by (unfold GEProofs5.AI in Y; rewrite <- (firstn_skipn (ld (cset D)) (AG (cset D))); apply in_or_app; auto). split; auto. destruct (AG_ise H groups HW G_rank G_all G_one G_sort V V_len ec ec_ok closed ec_det g D e Hg X Z) as (IE & _). rewrite <- (quad_in_same g e Hg IE). apply A. rewrite firstn_map. now apply in_map.
  Qed.
  Lemma AC_same g D e : g < ng -> split_ok g -> In D (MC g) -> In e (AC (cset D)) -> same e = false /\ In e (AG (cset D)).
  Proof.
    intros Hg HS X Y. destruct (lead_ok _ (HS D X)) as (_ & _ & A). assert (Z : In e (AG (cset D))) by (unfold GEProofs5.AC in Y; rewrite <- (firstn_skipn (ld (cset D)) (AG (cset D))); apply in_or_app; auto). split; auto. destruct (AG_ise H groups HW G_rank G_all G_one G_sort V V_len ec ec_ok closed ec_det g D e Hg X Z) as (IE & _). rewrite <- (quad_in_same g e Hg IE). apply A. rewrite skipn_map. now apply in_map.
  Qed.
  Lemma AG_split g D e : g < ng -> split_ok g -> In D (MC g) -> In e (AG (cset D)) -> if same e then In e (AI (cset D)) else In e (AC (cset D)).
  Proof.
    intros Hg HS X Y. assert (Z := Y). rewrite <- (firstn_skipn (ld (cset D)) (AG (cset D))) in Z. apply in_app_or in Z as [Z|Z]; fold (AI (cset D)) in Z || fold (AC (cset D)) in Z. now rewrite (proj1 (AI_same g D e Hg HS X Z)). now rewrite (proj1 (AC_same g D e Hg HS X Z)).
  Qed.
  Lemma ei_kind g D e : g < ng -> In D (MC g) -> In e (ei D) -> same e = true /\ tg e = cset D.
  Proof. intros Hg X Y. destruct (MC_r H groups G_rank g D Hg X) as (r & Hr & R). destruct (ei_ok r D e Hr R Y) as (A & B & _). unfold GEProofs3.same, GEProofs3.tg. rewrite A, B. split. apply list_eqb_refl. now apply isec_same. Qed.
  (** class and kind of the members of the list *)
  Lemma in1_kind g c e : g < ng -> split_ok g -> c < CN g -> In e (in1 g c) -> ise g e /\ same e = true /\ tg e = Ec g c.
  Proof.
    intros Hg HS Hc X. destruct (class_D H groups g c Hc) as (D0 & X0 & <-). rewrite (Ec_cset H groups HW G_rank G_one) in * by auto. unfold GEProofs5.in1 in X. rewrite (Ec_cset H groups HW G_rank G_one) in X by auto. apply in_app_or in X as [X|X]; [|apply in_app_or in X as [X|X]].
    - apply LII_in in X as (D & e' & A1 & A2 & A3 & ->). split. apply sp_ise. apply (ei_ise H groups G_rank V ei ei_ok g D e'); auto. rewrite same_sp, tg_sp. destruct (ei_kind g D e' Hg A1 A3) as (K1 & K2). split; auto. rewrite K2. now apply (cnr_iff H groups HW G_rank G_one g).
    - apply LCI_in in X as (D & e' & A1 & A2 & A3 & A4 & ->). split. apply sp_ise. apply (ec_ise H groups G_rank V ec ec_ok g D e'); auto. rewrite same_sp, tg_sp. unfold GEProofs3.ci in A4. apply andb_prop in A4 as (K1 & K2). split; auto. apply list_eqb_eq in K2. rewrite <- K2. now apply (cnr_iff H groups HW G_rank G_one g).
    - destruct (AI_same g D0 e Hg HS X0 X) as (K1 & K2). destruct (AG_ise H groups HW G_rank G_all G_one G_sort V V_len ec ec_ok closed ec_det g D0 e Hg X0 K2) as (K3 & K4). auto.
  Qed.
  Lemma in2_kind g c e : g < ng -> split_ok g -> c < CN g -> In e (in2 g c) -> ise g e /\ same e = false /\ tg e = Ec g c.
  Proof.
    intros Hg HS Hc X. destruct (class_D H groups g c Hc) as (D0 & X0 & <-). rewrite (Ec_cset H groups HW G_rank G_one) in * by auto. unfold GEProofs5.in2 in X. rewrite (Ec_cset H groups HW G_rank G_one) in X by auto. apply in_app_or in X as [X|X].
    - apply LCC_in in X as (D & e' & A1 & A2 & A3 & A4 & ->). split. apply sp_ise. apply (ec_ise H groups G_rank V ec ec_ok g D e'); auto. rewrite same_sp, tg_sp. unfold GEProofs3.cc in A4. apply andb_prop in A4 as (K1 & K2). apply negb_true_iff in K1. split; auto. apply list_eqb_eq in K2. rewrite <- K2. now apply (cnr_iff H groups HW G_rank G_one g).
    - destruct (AC_same g D0 e Hg HS X0 X) as (K1 & K2). destruct (AG_ise H groups HW G_rank G_all G_one G_sort V V_len ec ec_ok closed ec_det g D0 e Hg X0 K2) as (K3 & K4). auto.
  Qed.
  Lemma Ec_inj g c c' : g < ng -> c < CN g -> c' < CN g -> Ec g c = Ec g c' -> c = c'.
  Proof. intros Hg Hc Hc' E. destruct (class_D H groups g c Hc) as (D & X & <-). destruct (class_D H groups g c' Hc') as (D' & X' & <-). rewrite !(Ec_cset H groups HW G_rank G_one) in E by auto. now apply (cnr_iff H groups HW G_rank G_one g). Qed.
  Lemma ms_nodup g c : NoDup (ms g c). Proof. apply NoDup_filter, seq_NoDup. Qed.
  Lemma Dm_inj g m m' : m < MN g -> m' < MN g -> Dm g m = Dm g m' -> m = m'. Proof. intros A B E. apply (proj1 (NoDup_nth (MC g) []) (MC_nodup H groups g)); auto. Qed.
  Lemma LII_nodup g c : g < ng -> NoDup (LII g c).
  Proof.
    intros Hg. apply nodup_flat_g. apply ms_nodup.
    - intros m X. apply (ms_in H groups) in X as (Hm & _). unfold GEProofs5.fII. destruct (MC_r H groups G_rank g _ Hg (Dm_in g m Hm)) as (r & Hr & R). apply nodup_map_in. now apply (ei_nd r). intros x y X1 X2 E. now apply (ei_uniq H groups V ei ei_ok ei_sw g g r r (Dm g m) (Dm g m) x y).
    - intros m m' e X X' Y Y'. apply (ms_in H groups) in X as (Hm & _). apply (ms_in H groups) in X' as (Hm' & _). apply in_map_iff in Y as (x & <- & Y). apply in_map_iff in Y' as (y & E & Y'). destruct (MC_r H groups G_rank g _ Hg (Dm_in g m Hm)) as (r & Hr & R). destruct (MC_r H groups G_rank g _ Hg (Dm_in g m' Hm')) as (r' & Hr' & R'). symmetry in E. destruct (ei_uniq H groups V ei ei_ok ei_sw g g r r' (Dm g m) (Dm g m') x y) as (ED & _); auto. now apply (Dm_inj g).
  Qed.
  Lemma cross_nodup g c (f : list nat -> ge -> bool) : g < ng -> NoDup (flat_map (fun m => map (sp g) (filter (f (Dm g m)) (ec (Dm g m)))) (ms g c)).
  Proof.
    intros Hg. apply nodup_flat_g. apply ms_nodup.
    - intros m X. apply (ms_in H groups) in X as (Hm & _). apply nodup_map_filter. destruct (MC_r H groups G_rank g _ Hg (Dm_in g m Hm)) as (r & Hr & R). apply nodup_map_in. now apply (ec_nd r). intros x y X1 X2 E. now apply (ec_uniq H groups HW V ec ec_det ec_sw g g r r (Dm g m) (Dm g m) x y).
    - intros m m' e X X' Y Y'. apply (ms_in H groups) in X as (Hm & _). apply (ms_in H groups) in X' as (Hm' & _). apply in_map_iff in Y as (x & <- & Y). apply in_map_iff in Y' as (y & E & Y'). apply filter_In in Y as (Y & _). apply filter_In in Y' as (Y' & _). destruct (MC_r H groups G_rank g _ Hg (Dm_in g m Hm)) as (r & Hr & R). destruct (MC_r H groups G_rank g _ Hg (Dm_in g m' Hm')) as (r' & Hr' & R'). symmetry in E. destruct (ec_uniq H groups HW V ec ec_det ec_sw g g r r' (Dm g m) (Dm g m') x y) as (ED & _); auto. now apply (Dm_inj g).
  Qed.
  Lemma AGs_nodup g D : g < ng -> In D (MC g) -> NoDup (AI (cset D)) /\ NoDup (AC (cset D)).
  Proof.
    intros Hg X. pose proof (AG_nodup H groups HW G_rank G_all G_one G_sort V V_len ec ec_ok closed ec_det ec_nd ec_sw g D Hg X) as ND. rewrite <- (firstn_skipn (ld (cset D)) (AG (cset D))) in ND. fold (AI (cset D)) in ND. fold (AC (cset D)) in ND. split. now apply NoDup_app_l in ND. now apply NoDup_app_r in ND.
  Qed.
  Lemma LI_an g D0 c e : g < ng -> In D0 (MC g) -> In e (LII g c) -> In e (AG (cset D0)) -> False.
  Proof.
    intros Hg X0 X Y. apply LII_in in X as (D & e' & A1 & A2 & A3 & ->). apply (AG_in H groups HW G_rank G_all G_one G_sort V V_len ec ec_ok closed ec_det g) in Y as (q & D' & e2 & Hq & B1 & B2 & B3 & B4 & E); auto. destruct (MC_r H groups G_rank g _ Hg A1) as (r & Hr & R). destruct (MC_r H groups G_rank q _ Hq B1) as (r' & Hr' & R'). now apply (eiec_uniq H groups V ei ec ei_ok ec_det g g r r' D D' e' e2).
  Qed.
  Lemma LC_an g D0 D e' : g < ng -> In D0 (MC g) -> In D (MC g) -> In e' (ec D) -> hit D e' = true -> In (sp g e') (AG (cset D0)) -> False.
  Proof.
    intros Hg X0 A1 A3 A4 Y. apply (AG_in H groups HW G_rank G_all G_one G_sort V V_len ec ec_ok closed ec_det g) in Y as (q & D' & e2 & Hq & B1 & B2 & B3 & B4 & E); auto. destruct (MC_r H groups G_rank g _ Hg A1) as (r & Hr & R). destruct (MC_r H groups G_rank q _ Hq B1) as (r' & Hr' & R'). destruct (ec_uniq H groups HW V ec ec_det ec_sw g g r r' D D' e' e2) as (E1 & E2); auto. subst. congruence.
  Qed.
  Lemma in1_nodup g c : g < ng -> split_ok g -> c < CN g -> NoDup (in1 g c).
  Proof.
    intros Hg HS Hc. destruct (class_D H groups g c Hc) as (D0 & X0 & EC0). unfold GEProofs5.in1. assert (EE : Ec g c = cset D0) by (rewrite <- EC0; now apply (Ec_cset H groups HW G_rank G_one)). rewrite EE. apply nodup_app3.
    - now apply LII_nodup. - now apply (cross_nodup g c ci). - now apply (AGs_nodup g).
    - intros e X Y. apply LII_in in X as (D & e' & A1 & A2 & A3 & ->). apply LCI_in in Y as (D' & e2 & B1 & B2 & B3 & B4 & E). destruct (MC_r H groups G_rank g _ Hg A1) as (r & Hr & R). destruct (MC_r H groups G_rank g _ Hg B1) as (r' & Hr' & R'). now apply (eiec_uniq H groups V ei ec ei_ok ec_det g g r r' D D' e' e2).
    - intros e X Y. apply (LI_an g D0 c e); auto. now apply (AI_same g).
    - intros e X Y. apply LCI_in in X as (D & e' & A1 & A2 & A3 & A4 & ->). unfold GEProofs3.ci in A4. apply andb_prop in A4 as (K1 & K2). apply (LC_an g D0 D e'); auto. now apply (AI_same g).
  Qed.
  Lemma in2_nodup g c : g < ng -> split_ok g -> c < CN g -> NoDup (in2 g c).
  Proof.
    intros Hg HS Hc. destruct (class_D H groups g c Hc) as (D0 & X0 & EC0). unfold GEProofs5.in2. assert (EE : Ec g c = cset D0) by (rewrite <- EC0; now apply (Ec_cset H groups HW G_rank G_one)). rewrite EE. apply nodup_app.
    - now apply (cross_nodup g c cc). - now apply (AGs_nodup g).
    - intros e X Y. apply LCC_in in X as (D & e' & A1 & A2 & A3 & A4 & ->). unfold GEProofs3.cc in A4. apply andb_prop in A4 as (K1 & K2). apply (LC_an g D0 D e'); auto. now apply (AC_same g).
  Qed.
  Lemma CL_nodup g : g < ng -> split_ok g -> NoDup (CL g).
  Proof.
    intros Hg HS. unfold GEProofs5.CL. apply nodup_app.
    - apply nodup_flat_g. apply seq_NoDup. intros c X. apply in_seq in X. apply in1_nodup; auto; lia. intros c c' e X X' Y Y'. apply in_seq in X, X'. apply in1_kind in Y as (_ & _ & Y); auto; [|lia]. apply in1_kind in Y' as (_ & _ & Y'); auto; [|lia]. apply (Ec_inj g); auto; try lia. congruence.
    - apply nodup_flat_g. apply seq_NoDup. intros c X. apply in_seq in X. apply in2_nodup; auto; lia. intros c c' e X X' Y Y'. apply in_seq in X, X'. apply in2_kind in Y as (_ & _ & Y); auto; [|lia]. apply in2_kind in Y' as (_ & _ & Y'); auto; [|lia]. apply (Ec_inj g); auto; try lia. congruence.
    - intros e X Y. apply in_flat_map in X as (c & X & X'). apply in_flat_map in Y as (c' & Y & Y'). apply in_seq in X, Y. apply in1_kind in X' as (_ & X' & _); auto; [|lia]. apply in2_kind in Y' as (_ & Y' & _); auto; [|lia]. congruence.
  Qed.
  (** an edge of any group with both ends on this group is on the list, and nothing else *)
  Lemma CL_in g e : g < ng -> split_ok g -> (In e (CL g) <-> (exists D e', In D (MC g) /\ In e' (ei D) /\ e = sp g e') \/ (exists q D e', q < ng /\ In D (MC q) /\ In e' (ec D) /\ In g (tg e') /\ e = sp g e')).
  Proof.
    intros Hg HS. unfold GEProofs5.CL. rewrite in_app_iff. unfold GEProofs5.CL1, GEProofs5.CL2. rewrite !in_flat_map. split.
    - assert (AN : forall D0, In D0 (MC g) -> In e (AG (cset D0)) -> exists q D e', q < ng /\ In D (MC q) /\ In e' (ec D) /\ In g (tg e') /\ e = sp g e'). { intros D0 X0 Y. apply (AG_in H groups HW G_rank G_all G_one G_sort V V_len ec ec_ok closed ec_det g) in Y as (q & D' & e2 & Hq & B1 & B2 & B3 & B4 & E); auto. exists q, D', e2. split; auto. split; auto. split; auto. split; auto. rewrite B4. now apply (MC_gof H groups HW G_rank G_one). }
      assert (CR : forall D e', In D (MC g) -> In e' (ec D) -> In g (tg e')). { intros D e' A1 A3. destruct (MC_r H groups G_rank g _ Hg A1) as (r & Hr & R). apply (ec_target H groups ec ec_det r D e'); auto. now apply (MC_gof H groups HW G_rank G_one). }
      intros [(c & X & Y)|(c & X & Y)]; apply in_seq in X; destruct (class_D H groups g c ltac:(lia)) as (D0 & X0 & EC0); assert (EE : Ec g c = cset D0) by (rewrite <- EC0; now apply (Ec_cset H groups HW G_rank G_one)).
      + unfold GEProofs5.in1 in Y. rewrite EE in Y. apply in_app_or in Y as [Y|Y]; [|apply in_app_or in Y as [Y|Y]]. left. apply LII_in in Y as (D & e' & A1 & A2 & A3 & ->). eauto. right. apply LCI_in in Y as (D & e' & A1 & A2 & A3 & A4 & ->). exists g, D, e'. eauto 10. right. apply (AN D0); auto. now apply (AI_same g).
      + unfold GEProofs5.in2 in Y. rewrite EE in Y. apply in_app_or in Y as [Y|Y]. right. apply LCC_in in Y as (D & e' & A1 & A2 & A3 & A4 & ->). exists g, D, e'. eauto 10. right. apply (AN D0); auto. now apply (AC_same g).
    - intros [(D & e' & A1 & A2 & ->)|(q & D & e' & Hq & A1 & A2 & A3 & ->)].
      + left. destruct (cnr_ok H groups g D A1) as (C1 & _). exists (cnr g D). split. apply in_seq; lia. apply in_or_app. left. apply LII_in. eauto 10.
      + destruct (ec_isv H groups HW G_rank G_all G_one V ec ec_ok q D e' g Hq A1 A2 A3) as (_ & IE). destruct (hit D e') eqn:EH.
        * assert (GD : In g (cset D)) by (apply list_eqb_eq in EH; now rewrite EH). assert (DG : In D (MC g)) by now apply (MC_share H groups HW G_rank G_all G_one q). destruct (cnr_ok H groups g D DG) as (C1 & _). destruct (same e') eqn:ES; [left|right]; exists (cnr g D); (split; [apply in_seq; lia|]). unfold GEProofs5.in1. apply in_or_app. right. apply in_or_app. left. apply LCI_in. exists D, e'. unfold GEProofs3.ci. rewrite ES, EH. auto 10. unfold GEProofs5.in2. apply in_or_app. left. apply LCC_in. exists D, e'. unfold GEProofs3.cc. rewrite ES, EH. auto 10.
        * destruct (closed g (fst (fst e')) (fst (snd e')) Hg (proj1 (proj1 IE)) (proj1 (proj2 IE))) as (F & F1 & F2). fold (tg e') in F2. assert (Z : In (sp g e') (AG (cset F))). { apply (AG_in H groups HW G_rank G_all G_one G_sort V V_len ec ec_ok closed ec_det g); auto. exists q, D, e'. auto 10. } destruct (cnr_ok H groups g F F1) as (C1 & _). pose proof (AG_split g F _ Hg HS F1 Z) as SPL. rewrite same_sp in SPL. destruct (same e'); [left|right]; exists (cnr g F); (split; [apply in_seq; lia|]). unfold GEProofs5.in1. apply in_or_app. right. apply in_or_app. right. now rewrite (Ec_cset H groups HW G_rank G_one). unfold GEProofs5.in2. apply in_or_app. right. now rewrite (Ec_cset H groups HW G_rank G_one).
  Qed.
End GE6.
