(** Annoying edges: exchange between the groups; counts per class of the old mesh. *)
From Verif Require Import Base EQCModel UtilProofs EQCProofs EQCProofs2 EQCProofs3 EQCProps AggMapModel AggMapProofs ReduceModel ReduceProps GCModel GCProofs GCProofs2 GEModel GEProofs GEProofs2 GEProofs3.
Local Open Scope nat_scope.

Lemma nodup_flat_g {A B} (f : A -> list B) l : NoDup l -> (forall r, In r l -> NoDup (f r)) -> (forall r r' x, In r l -> In r' l -> In x (f r) -> In x (f r') -> r = r') -> NoDup (flat_map f l).
Proof.
  induction 1 as [|a l H1 H2 IH]; cbn; intros HF HD. constructor. apply nodup_app. apply HF; now left. apply IH. intros; apply HF; now right. intros r r' x R R'. apply HD; now right.
  intros x X Y. apply in_flat_map in Y as (r & R & Y). apply H1. rewrite (HD a r x); auto.
Qed.
Lemma nodup_map_in {A B} (f : A -> B) l : NoDup l -> (forall x y, In x l -> In y l -> f x = f y -> x = y) -> NoDup (map f l).
Proof. induction 1 as [|a l H1 H2 IH]; intros HI; cbn; constructor. intros X. apply in_map_iff in X as (y & E & Y). rewrite (HI y a) in Y; auto. now right. now left. apply IH. intros; apply HI; auto; now right. Qed.
Lemma nodup_map_filter {A B} (f : A -> B) P l : NoDup (map f l) -> NoDup (map f (filter P l)).
Proof. induction l as [|a l IH]; cbn; auto. intros ND. inversion ND; subst. destruct (P a); cbn; auto. constructor; auto. intros X. apply in_map_iff in X as (y & E & Y). apply filter_In in Y as (Y & _). apply H1. rewrite <- E. now apply in_map. Qed.
Lemma perm_flat {A B} (f : A -> list B) l l' : Permutation l l' -> Permutation (flat_map f l) (flat_map f l').
Proof. intros P. now apply Permutation_flat_map. Qed.
Lemma cntb_perm {A} (f : A -> bool) l l' : Permutation l l' -> cntb f l = cntb f l'.
Proof. intros P. unfold cntb. apply Permutation_length. now apply filter_perm. Qed.
Lemma cntb_app {A} (f : A -> bool) l l' : cntb f (l ++ l') = cntb f l + cntb f l'. Proof. unfold cntb. now rewrite filter_app, app_length. Qed.
Lemma cntb_map {A B} (f : B -> bool) (h : A -> B) l : cntb f (map h l) = cntb (fun x => f (h x)) l.
Proof. unfold cntb. induction l as [|a l IH]; auto. cbn. destruct (f (h a)); cbn; auto. Qed.
Lemma cntb_false {A} (f : A -> bool) l : (forall x, In x l -> f x = false) -> cntb f l = 0.
Proof. unfold cntb. induction l as [|a l IH]; auto. intros X. cbn. rewrite (X a) by now left. apply IH. intros; apply X; now right. Qed.
Lemma cntb_ext {A} (f h : A -> bool) l : (forall x, In x l -> f x = h x) -> cntb f l = cntb h l.
Proof. intros E. unfold cntb. f_equal. now apply filter_ext_in. Qed.
Lemma cntb_flat {A B} (f : A * B -> bool) (P : A -> bool) (h : A -> list B) L : cntb (fun x => f x && P (fst x)) (flat_map (fun D => map (pair D) (h D)) L) = list_sum (map (fun D => cntb (fun e => f (D, e)) (h D)) (filter P L)).
Proof.
  induction L as [|D L IH]; auto. cbn [flat_map filter]. rewrite cntb_app, IH, cntb_map. cbn [fst]. destruct (P D); cbn [map list_sum fold_right].
  - unfold list_sum. f_equal. apply cntb_ext. intros x _. apply andb_true_r.
  - rewrite cntb_false; auto. intros x _. apply andb_false_r.
Qed.
Lemma filter_one {A} (P : A -> bool) l d m : NoDup l -> m < length l -> (forall i, i < length l -> P (nth i l d) = (i =? m)) -> filter P l = [nth m l d].
Proof.
  intros ND. revert m. induction ND as [|a l H1 H2 IH]; intros m Hm HP; cbn [length] in *. lia. cbn [filter]. assert (P0 := HP 0 ltac:(lia)). cbn [nth] in P0. rewrite P0. destruct m as [|m].
  - cbn [nth Nat.eqb]. f_equal. assert (Z : forall x, In x l -> P x = false). { intros x X. apply In_nth with (d := d) in X as (i & Hi & <-). now apply (HP (S i) ltac:(lia)). } clear - Z. induction l as [|b l IH]; auto. cbn. rewrite Z by now left. apply IH. intros; apply Z; now right.
  - cbn [Nat.eqb nth]. apply IH. lia. intros i Hi. now apply (HP (S i) ltac:(lia)).
Qed.
Lemma sort_by_map_g {A B} (less : B -> B -> bool) (f : A -> B) l : map f (sort_by (fun a b => less (f a) (f b)) l) = sort_by less (map f l).
Proof.
  induction l as [|x l IH]; auto. cbn [sort_by fold_right map]. fold (sort_by (fun a b => less (f a) (f b)) l). fold (sort_by less (map f l)). rewrite <- IH. generalize (sort_by (fun a b => less (f a) (f b)) l). clear.
  induction l as [|y l IH]; auto. cbn [insert_by map]. destruct (less (f x) (f y)) eqn:E; cbn [map]; auto. now rewrite IH.
Qed.
(** edges within a class come first *)
Definition infirst (l : list quad) : Prop := exists a b, l = a ++ b /\ (forall x, In x a -> quad_in x = true) /\ forall x, In x b -> quad_in x = false.
Lemma insert_infirst x l : infirst l -> infirst (insert_by quad_less x l).
Proof.
  intros (a & b & -> & HA & HB). induction a as [|y a IH]; cbn [app].
  - destruct (quad_in x) eqn:EX.
    + exists [x], b. split. 2: split; auto; intros z [<-|[]]; auto. cbn [app]. destruct b as [|y b]; auto. cbn [insert_by]. unfold quad_less. rewrite EX, (HB y) by now left. reflexivity.
    + exists [], (insert_by quad_less x b). split; auto. split. intros z []. intros z Z. apply (Permutation_in _ (insert_by_perm quad_less x b)) in Z as [<-|Z]; auto.
  - cbn [insert_by]. destruct (quad_less x y) eqn:EL.
    + assert (EX : quad_in x = true). { unfold quad_less in EL. rewrite (HA y) in EL by now left. destruct (quad_in x); [reflexivity|cbn in EL; congruence]. } exists (x :: y :: a), b. split; auto. split; auto. intros z [<-|Z]; auto.
    + destruct IH as (a' & b' & E & A' & B'). intros; apply HA; now right. exists (y :: a'), b'. rewrite E. split; auto. split; auto. intros z [<-|Z]; auto. apply HA. now left.
Qed.
Lemma reduce_infirst rows : infirst (reduce_annoy rows).
Proof. unfold reduce_annoy. induction (concat rows) as [|x l IH]; cbn. exists [], []. split; auto. split; intros z []. now apply insert_infirst. Qed.
Lemma lead_ok l : infirst l -> lead l <= length l /\ (forall x, In x (firstn (lead l) l) -> quad_in x = true) /\ forall x, In x (skipn (lead l) l) -> quad_in x = false.
Proof.
  intros (a & b & -> & HA & HB). assert (E : lead (a ++ b) = length a). { clear - HA HB. induction a as [|x a IH]; cbn [app lead]. destruct b as [|y b]; auto. cbn. now rewrite (HB y) by now left. rewrite (HA x) by now left. cbn. f_equal. apply IH. intros; apply HA; now right. }
  rewrite E, app_length. split; [lia|]. rewrite firstn_app, firstn_all, Nat.sub_diag, skipn_app, skipn_all, Nat.sub_diag. cbn. rewrite app_nil_r. auto.
Qed.

Section GE4.
  Variables (H : list (list (list nat))) (groups : list (list nat)).
  Hypothesis HW : world H.
  Notation np := (length H).
  Notation ng := (length groups).
  Notation grp g := (nth g groups []).
  Hypothesis G_rank : forall g p, g < ng -> In p (grp g) -> p < np.
  Hypothesis G_all : forall p, p < np -> exists g, g < ng /\ In p (grp g).
  Hypothesis G_one : forall g g' p, g < ng -> g' < ng -> In p (grp g) -> In p (grp g') -> g = g'.
  Hypothesis G_ne : forall g, g < ng -> grp g <> [].
  Hypothesis G_sort : forall g, g < ng -> sset (grp g).
  Notation MC := (MC H groups).
  Notation cset := (cset groups).
  Notation crow := (crow groups).
  Notation ctab_of := (ctab_of H groups).
  Notation mnr := (mnr H groups).
  Notation cnr := (cnr H groups).
  Notation cl := (cl H groups).
  Variable V : list (list (list nat)).
  Hypothesis V_len : forall r, r < np -> length (nth r V []) = length (nth r H []).
  Notation nv := (nv H V).
  Notation CN g := (length (ctab_of g)).
  Notation MN g := (length (MC g)).
  Notation CT := (CT H groups).
  Notation iv := (iv H groups V).
  Notation isv := (isv H groups V).
  Notation ise := (ise H groups V).
  Notation sp := (sp H groups V).
  Notation qd := (qd H groups V).
  Notation cE := (cE H groups).
  Notation isec := (isec groups).
  Notation dsp_ok := (dsp_ok H groups V).

  Variables (EI EC : list (list (list fedge))) (gvr : nat -> nat -> gv) (ei ec : list nat -> list ge).
  Notation gf := (gf gvr).
  Notation row T r j := (nth j (nth r T []) []).
  Hypothesis EI_len : forall r, r < np -> length (nth r EI []) = length (nth r H []).
  Hypothesis EC_len : forall r, r < np -> length (nth r EC []) = length (nth r H []).
  Hypothesis E_ei : forall r j, r < np -> j < length (nth r H []) -> map (gf r) (row EI r j) = ei (nth j (classes H r) []).
  Hypothesis E_ec : forall r j, r < np -> j < length (nth r H []) -> map (gf r) (row EC r j) = ec (nth j (classes H r) []).
  Hypothesis ei_ok : forall r D e, r < np -> In D (classes H r) -> In e (ei D) -> fst (fst e) = D /\ fst (snd e) = D /\ snd (fst e) < nv D /\ snd (snd e) < nv D.
  Hypothesis ec_ok : forall r D e, r < np -> In D (classes H r) -> In e (ec D) -> In (fst (fst e)) (classes H r) /\ In (fst (snd e)) (classes H r) /\ snd (fst e) < nv (fst (fst e)) /\ snd (snd e) < nv (fst (snd e)).
  Hypothesis closed : forall g A B, g < ng -> In A (MC g) -> In B (MC g) -> exists D, In D (MC g) /\ cset D = isec A B.
  Notation tg := (tg groups).
  Notation same := (same groups).
  Notation hit := (hit groups).
  Notation ci := (ci groups).
  Notation cc := (cc groups).
  Notation ci_i := (ci_i groups).
  Notation an_i := (an_i groups).
  Notation items := (items H groups V ec).
  Notation inv := (inv H groups V).
  Hypothesis ec_det : forall r D e, r < np -> In D (classes H r) -> In e (ec D) -> (forall x, In x D <-> In x (fst (fst e)) /\ In x (fst (snd e))) /\ fst (fst e) <> fst (snd e).
  Hypothesis ec_nd : forall r D, r < np -> In D (classes H r) -> NoDup (ec D).
  Hypothesis ec_sw : forall r D e, r < np -> In D (classes H r) -> In e (ec D) -> ~ In (snd e, fst e) (ec D).
  Hypothesis ei_nd : forall r D, r < np -> In D (classes H r) -> NoDup (ei D).
  Hypothesis ei_sw : forall r D e, r < np -> In D (classes H r) -> In e (ei D) -> ~ In (snd e, fst e) (ei D).
  (** *** uniqueness *)
  Lemma sp_cases g e : sp g e = e \/ sp g e = (snd e, fst e). Proof. unfold GEProofs2.sp. destruct (_ <? _); auto. Qed.
  Lemma sp_eq g g' e e' : sp g e = sp g' e' -> e = e' \/ e = (snd e', fst e').
  Proof. intros E. destruct e as (a & b), e' as (a' & b'). destruct (sp_cases g (a, b)) as [X|X], (sp_cases g' (a', b')) as [Y|Y]; rewrite X, Y in E; cbn [fst snd] in *; auto. right; congruence. left. congruence. Qed.
  Lemma class_sset r D : r < np -> In D (classes H r) -> sset D.
  Proof. intros Hr X. unfold classes in X. apply in_map_iff in X as (d & <- & X). apply members_sset. now apply (w_row H HW r). Qed.
  Lemma ec_uniq g g' r r' D D' e e' : r < np -> r' < np -> In D (classes H r) -> In D' (classes H r') -> In e (ec D) -> In e' (ec D') -> sp g e = sp g' e' -> D = D' /\ e = e'.
  Proof.
    intros Hr Hr' X X' Y Y' E. destruct (ec_det r D e Hr X Y) as (A & A2). destruct (ec_det r' D' e' Hr' X' Y') as (B & B2). assert (ED : D = D'). { apply sset_ext. now apply (class_sset r). now apply (class_sset r'). intros x. rewrite A, B. destruct (sp_eq g g' e e' E) as [-> | ->]; cbn [fst snd]; tauto. }
    split; auto. rewrite <- ED in Y'. destruct (sp_eq g g' e e' E) as [|Q]; auto. exfalso. apply (ec_sw r D e' Hr X Y'). now rewrite <- Q.
  Qed.
  Lemma ei_uniq g g' r r' D D' e e' : r < np -> r' < np -> In D (classes H r) -> In D' (classes H r') -> In e (ei D) -> In e' (ei D') -> sp g e = sp g' e' -> D = D' /\ e = e'.
  Proof.
    intros Hr Hr' X X' Y Y' E. destruct (ei_ok r D e Hr X Y) as (A1 & A2 & _). destruct (ei_ok r' D' e' Hr' X' Y') as (B1 & B2 & _). assert (ED : D = D'). { destruct (sp_eq g g' e e' E) as [-> | ->]; cbn [fst snd] in *; congruence. }
    split; auto. rewrite <- ED in Y'. destruct (sp_eq g g' e e' E) as [|Q]; auto. exfalso. apply (ei_sw r D e' Hr X Y'). now rewrite <- Q.
  Qed.
  Lemma eiec_uniq g g' r r' D D' e e' : r < np -> r' < np -> In D (classes H r) -> In D' (classes H r') -> In e (ei D) -> In e' (ec D') -> sp g e = sp g' e' -> False.
  Proof. intros Hr Hr' X X' Y Y' E. destruct (ei_ok r D e Hr X Y) as (A1 & A2 & _). destruct (ec_det r' D' e' Hr' X' Y') as (B1 & B2). destruct (sp_eq g g' e e' E) as [-> | ->]; cbn [fst snd] in *; congruence. Qed.
  Lemma MC_r g D : g < ng -> In D (MC g) -> exists r, r < np /\ In D (classes H r). Proof. intros Hg X. apply MC_in in X as (r & R1 & R2). exists r. split; auto. now apply (G_rank g). Qed.
  (** *** items *)
  Definition eitems (L : list (list nat)) : list item := flat_map (fun D => map (pair D) (ec D)) L.
  Lemma items_perm g : g < ng -> Permutation (items g) (eitems (MC g)).
  Proof.
    intros Hg. unfold eitems. rewrite <- (perm_flat _ _ _ (sslots_perm H groups HW G_rank G_sort V V_len g Hg)). unfold GEProofs3.items, slot_items. rewrite !flat_map_concat_map, map_map. reflexivity.
  Qed.
  Lemma items_in g D e : g < ng -> In (D, e) (items g) <-> In D (MC g) /\ In e (ec D).
  Proof.
    intros Hg. assert (P := items_perm g Hg). split.
    - intros X. apply (Permutation_in _ P) in X. apply in_flat_map in X as (D' & X1 & X2). apply in_map_iff in X2 as (e' & E & X2). injection E as -> ->. auto.
    - intros (X1 & X2). apply (Permutation_in _ (Permutation_sym P)). apply in_flat_map. exists D. split; auto. now apply in_map.
  Qed.
  Lemma ec_sp_nodup g q D : g < ng -> In D (MC g) -> NoDup (map (sp q) (ec D)).
  Proof. intros Hg X. destruct (MC_r g D Hg X) as (r & Hr & R). apply nodup_map_in. now apply (ec_nd r). intros x y X1 X2 E. now apply (ec_uniq q q r r D D x y). Qed.
  Lemma items_nodup g : g < ng -> NoDup (map (fun x => sp g (snd x)) (items g)).
  Proof.
    intros Hg. eapply Permutation_NoDup. apply Permutation_sym, Permutation_map, (items_perm g Hg). unfold eitems. replace (map (fun x => sp g (snd x)) (flat_map (fun D => map (pair D) (ec D)) (MC g))) with (flat_map (fun D => map (sp g) (ec D)) (MC g)).
    - apply nodup_flat_g. apply MC_nodup. intros D X. now apply (ec_sp_nodup g). intros D D' x X X' Y Y'. apply in_map_iff in Y as (e & <- & Y). apply in_map_iff in Y' as (e' & E & Y'). destruct (MC_r g D Hg X) as (r & Hr & R). destruct (MC_r g D' Hg X') as (r' & Hr' & R'). symmetry in E. now apply (ec_uniq g g r r' D D' e e').
    - clear. induction (MC g) as [|D L IH]; auto. cbn [flat_map]. rewrite map_app, map_map, IH. reflexivity.
  Qed.
  (** *** what the groups agree on *)
  Definition AGq (E : list nat) (q : nat) : list ge := map (fun x => sp q (snd x)) (filter (fun x => an_i x && (cE q (tg (snd x)) =? cE q E) && (q =? hd 0 (cset (fst x)))) (items q)).
  Definition AG (E : list nat) : list ge := sort_by (fun a b => quad_less (qd a) (qd b)) (flat_map (AGq E) E).
  Lemma cset_sub D A : (forall x, In x D -> In x A) -> forall q, In q (cset D) -> In q (cset A).
  Proof. intros I q X. apply cset_in in X as (p & P1 & P2). apply cset_in. exists p. auto. Qed.
  Lemma ec_target r D e : r < np -> In D (classes H r) -> In e (ec D) -> forall q, In q (cset D) -> In q (tg e).
  Proof. intros Hr X Y q Q. destruct (ec_det r D e Hr X Y) as (A & _). apply isec_in. split; eapply cset_sub; try exact Q; intros x Z; now apply A in Z. Qed.
  Lemma ec_isv g D e q : g < ng -> In D (MC g) -> In e (ec D) -> In q (tg e) -> q < ng /\ ise q e.
  Proof.
    intros Hg X Y Q. assert (IE : ise g e) by (eapply ec_ise; eauto). destruct IE as ((A1 & A2) & (B1 & B2)). apply isec_in in Q as (Q1 & Q2). assert (Hq : q < ng) by (apply (cset_lt H groups HW G_rank G_all G_one g (fst (fst e))); auto). split; auto. split; split; auto; now apply (MC_share H groups HW G_rank G_all G_one g).
  Qed.
  Lemma tgE q e D0 : q < ng -> ise q e -> In D0 (MC q) -> (cE q (tg e) =? cE q (cset D0)) = list_eqb (tg e) (cset D0).
  Proof.
    intros Hq (A & B) X. destruct (closed q (fst (fst e)) (fst (snd e)) Hq (proj1 A) (proj1 B)) as (F & F1 & F2). fold (tg e) in F2. rewrite <- F2. rewrite <- !cnr_cE. destruct (list_eqb (cset F) (cset D0)) eqn:E.
    - apply list_eqb_eq in E. apply Nat.eqb_eq. now apply (cnr_iff H groups HW G_rank G_one). - apply Nat.eqb_neq. intros Z. apply (cnr_iff H groups HW G_rank G_one) in Z; auto. rewrite Z, list_eqb_refl in E. discriminate.
  Qed.
  Lemma AGq_in g D0 q e : g < ng -> In D0 (MC g) -> In q (cset D0) -> (In e (AGq (cset D0) q) <-> exists D e', In D (MC q) /\ In e' (ec D) /\ hit D e' = false /\ tg e' = cset D0 /\ q = hd 0 (cset D) /\ e = sp q e').
  Proof.
    intros Hg X0 Q. assert (Hq : q < ng) by now apply (cset_lt H groups HW G_rank G_all G_one g D0). assert (XQ : In D0 (MC q)) by now apply (MC_share H groups HW G_rank G_all G_one g). unfold AGq. rewrite in_map_iff. split.
    - intros ((D & e') & <- & Z). apply filter_In in Z as (Z1 & Z2). apply items_in in Z1 as (Z1 & Z3); auto. apply andb_prop in Z2 as (Z2 & Z4). apply andb_prop in Z2 as (Z2 & Z5). cbn [fst snd] in *. rewrite (tgE q e' D0) in Z5; auto. 2: eapply ec_ise; eauto. apply list_eqb_eq in Z5. apply Nat.eqb_eq in Z4. exists D, e'. unfold GEProofs3.an_i in Z2. cbn [fst snd] in Z2. apply negb_true_iff in Z2. auto 10.
    - intros (D & e' & A1 & A2 & A3 & A4 & A5 & ->). exists (D, e'). split; auto. apply filter_In. split. now apply items_in. cbn [fst snd]. rewrite (tgE q e' D0); auto. 2: eapply ec_ise; eauto. rewrite A4, list_eqb_refl. unfold GEProofs3.an_i. cbn [fst snd]. rewrite A3. cbn [negb andb]. now apply Nat.eqb_eq.
  Qed.
  Lemma AG_perm E : Permutation (AG E) (flat_map (AGq E) E). Proof. apply sort_by_perm. Qed.
  Lemma AG_in g D0 e : g < ng -> In D0 (MC g) -> (In e (AG (cset D0)) <-> exists q D e', q < ng /\ In D (MC q) /\ In e' (ec D) /\ hit D e' = false /\ tg e' = cset D0 /\ e = sp g e').
  Proof.
    intros Hg X0. assert (P := AG_perm (cset D0)). split.
    - intros X. apply (Permutation_in _ P) in X. apply in_flat_map in X as (q & Q & X). assert (Hq : q < ng) by now apply (cset_lt H groups HW G_rank G_all G_one g D0). apply (AGq_in g) in X as (D & e' & A1 & A2 & A3 & A4 & A5 & ->); auto. exists q, D, e'. split; auto. split; auto. split; auto. split; auto. split; auto.
      apply (sp_shared H groups HW G_rank G_all G_one V); auto. eapply ec_ise; eauto. apply (ec_isv q D e' g); auto. rewrite A4. now apply (MC_gof H groups HW G_rank G_one).
    - intros (q & D & e' & Hq & A1 & A2 & A3 & A4 & ->). destruct (lead_group H groups HW G_rank G_all G_one q D Hq A1) as (L1 & L2 & L3). destruct (MC_r q D Hq A1) as (r & Hr & R). assert (LT : In (hd 0 (cset D)) (cset D0)) by (rewrite <- A4; now apply (ec_target r D e')).
      apply (Permutation_in _ (Permutation_sym P)). apply in_flat_map. exists (hd 0 (cset D)). split; auto. apply (AGq_in g); auto. exists D, e'. split; auto. split; auto. split; auto. split; auto. split; auto. apply (sp_shared H groups HW G_rank G_all G_one V); auto. apply (ec_isv q D e' g); auto. rewrite A4. now apply (MC_gof H groups HW G_rank G_one). eapply ec_ise; eauto.
  Qed.
  Lemma AG_ise g D0 e : g < ng -> In D0 (MC g) -> In e (AG (cset D0)) -> ise g e /\ tg e = cset D0.
  Proof.
    intros Hg X0 X. apply (AG_in g) in X as (q & D & e' & Hq & A1 & A2 & A3 & A4 & ->); auto. split. apply sp_ise. apply (ec_isv q D e' g); auto. rewrite A4. now apply (MC_gof H groups HW G_rank G_one). now rewrite tg_sp.
  Qed.
  Lemma AG_nodup g D0 : g < ng -> In D0 (MC g) -> NoDup (AG (cset D0)).
  Proof.
    intros Hg X0. apply (Permutation_NoDup (Permutation_sym (AG_perm _))). apply nodup_flat_g. apply sset_nodup, cset_sset.
    - intros q Q. unfold AGq. apply nodup_map_filter, items_nodup. now apply (cset_lt H groups HW G_rank G_all G_one g D0).
    - intros q q' e Q Q' X X'. apply (AGq_in g) in X as (D & e1 & A1 & A2 & A3 & A4 & A5 & A6); auto. apply (AGq_in g) in X' as (D' & e2 & B1 & B2 & B3 & B4 & B5 & B6); auto. destruct (MC_r q D (cset_lt H groups HW G_rank G_all G_one g D0 q Hg X0 Q) A1) as (r & Hr & R). destruct (MC_r q' D' (cset_lt H groups HW G_rank G_all G_one g D0 q' Hg X0 Q') B1) as (r' & Hr' & R').
      destruct (ec_uniq q q' r r' D D' e1 e2) as (ED & _); auto. congruence. congruence.
  Qed.
  (** *** exchange *)
  Definition dS : cstate := mkS [] [] [] [] [].
  Lemma same_class_cE g q D0 k : g < ng -> q < ng -> In D0 (MC g) -> k < CN q -> same_class q (nth k (ctab_of q) []) g (nth (cnr g D0) (ctab_of g) []) -> In D0 (MC q) /\ k = cnr q D0.
  Proof.
    intros Hg Hq X0 Hk SC. destruct (cnr_ok H groups g D0 X0) as (_ & C2). rewrite C2 in SC. assert (Y := nth_In (ctab_of q) [] Hk). apply ctab_in in Y as (D1 & Y1 & Y2). rewrite Y2 in SC. apply same_members in SC. 2,3: apply del_sset, cset_sset. rewrite !(members_crow H groups HW G_rank G_one) in SC by auto.
    assert (XQ : In D0 (MC q)). { apply (MC_share H groups HW G_rank G_all G_one g); auto. rewrite <- SC. now apply (MC_gof H groups HW G_rank G_one). } split; auto. destruct (cnr_ok H groups q D0 XQ) as (C3 & C4). apply (proj1 (NoDup_nth (ctab_of q) []) (ctab_nodup H groups q)); auto. rewrite Y2, C4. unfold GCProofs.crow. congruence.
  Qed.
  Lemma reduce_ok Ss : length Ss = ng -> (forall g, g < ng -> inv g (nth g Ss dS) (items g)) ->
    exists aes, ReduceTable CT (map s_tab Ss) (fun _ _ rows => reduce_annoy rows) = Ret aes /\ length aes = ng /\ (forall g, g < ng -> length (nth g aes []) = CN g) /\ forall g D, g < ng -> In D (MC g) -> nth (cnr g D) (nth g aes []) [] = map qd (AG (cset D)) /\ infirst (map qd (AG (cset D))).
  Proof.
    intros LS HI. assert (LC := CT_len H groups). assert (NT : forall g, g < ng -> nth g (map s_tab Ss) [] = s_tab (nth g Ss dS)) by (intros g Hg; now rewrite (nth_map_ok _ _ _ dS) by lia).
    destruct (reduce_world CT (CT_world H groups HW G_rank G_all G_one) quad quad (map s_tab Ss) (fun _ _ rows => reduce_annoy rows)) as (out & E & LO & LR & HO). now rewrite map_length, LC. { intros r Hr. rewrite LC in Hr. rewrite NT, CT_nth by auto. apply (HI r Hr). }
    exists out. split; auto. split; [lia|]. split. { intros g Hg. rewrite LR by lia. now rewrite CT_nth. } intros g D Hg X. destruct (cnr_ok H groups g D X) as (C1 & C2). rewrite LC in HO. destruct (HO g (cnr g D) Hg) as (m & km & rows & A1 & A2 & A3 & A4 & A5 & A6 & A7). now rewrite CT_nth.
    rewrite CT_nth in A2 by auto. rewrite !CT_nth in A3 by auto. rewrite CT_nth in A4, A6 by auto. destruct (same_class_cE g m D km Hg A1 X A2 A3) as (XM & ->). destruct (cnr_ok H groups m D XM) as (M1 & M2). rewrite M2 in A4, A6.
    assert (ES : cset D = m :: crow m D). { pose proof (members_crow H groups HW G_rank G_one m D A1 XM) as Q. apply sset_ext. apply cset_sset. constructor. apply del_sset, cset_sset. now apply Forall_forall. intros x. rewrite <- Q. rewrite in_members. cbn. intuition. }
    assert (ER : rows = map (fun q => map qd (AGq (cset D) q)) (cset D)).
    { apply (nth_ext_eq _ _ []). rewrite map_length, ES. exact A6. intros i Hi. assert (Hi' : i < length (cset D)) by (rewrite ES; cbn [length]; lia). rewrite (nth_map_ok _ _ _ 0) by auto. set (q := nth i (cset D) 0). assert (Q : In q (cset D)) by now apply nth_In. assert (Hq : q < ng) by now apply (cset_lt H groups HW G_rank G_all G_one g D). assert (XQ : In D (MC q)) by now apply (MC_share H groups HW G_rank G_all G_one g). destruct (cnr_ok H groups q D XQ) as (Q1 & Q2).
      specialize (A7 q (cnr q D)). rewrite CT_nth in A7 by auto. specialize (A7 Hq Q1). rewrite CT_nth, C2, Q2 in A7 by auto. assert (PI : position q m (nth (cnr m D) (nth m CT []) []) = i). { rewrite CT_nth, M2 by auto. unfold position. rewrite <- ES. rewrite position_pos; auto. 2: apply cset_sset. unfold q. apply ReduceProofs.pos_of_nth; auto. apply sset_nodup, cset_sset. } rewrite PI in A7. rewrite A7.
      - rewrite NT by auto. destruct (HI q Hq) as (_ & _ & _ & _ & I5 & I6). rewrite I6 by auto. unfold AGq. rewrite map_map. rewrite cnr_cE. reflexivity.
      - apply same_members. 1,2: apply del_sset, cset_sset. rewrite !(members_crow H groups HW G_rank G_one); auto. }
    rewrite A5. assert (EF : reduce_annoy rows = map qd (AG (cset D))). { unfold reduce_annoy, AG. rewrite sort_by_map_g. f_equal. rewrite ER. rewrite flat_map_concat_map, concat_map, map_map. reflexivity. } split; auto. rewrite <- EF. apply reduce_infirst.
  Qed.
  (** *** counts *)
  Definition nci (D : list nat) : nat := cntb (ci D) (ec D).
  Definition ncc (D : list nat) : nat := cntb (cc D) (ec D).
  Definition nan (D : list nat) : nat := cntb (fun e => negb (hit D e)) (ec D).
  Lemma n_total D : length (ec D) - nci D - nan D = ncc D.
  Proof.
    unfold nci, nan, ncc, cntb, GEProofs3.ci, GEProofs3.cc. enough (length (ec D) = length (filter (fun e => same e && hit D e) (ec D)) + length (filter (fun e => negb (hit D e)) (ec D)) + length (filter (fun e => negb (same e) && hit D e) (ec D))) by lia.
    induction (ec D) as [|e l IH]; auto. cbn [filter]. destruct (same e), (hit D e); cbn [negb andb length]; lia.
  Qed.
  Lemma mnr_filter g m : m < MN g -> filter (fun D => mnr g D =? m) (MC g) = [nth m (MC g) []].
  Proof. intros Hm. apply filter_one. apply MC_nodup. auto. intros i Hi. rewrite mnr_nth by auto. reflexivity. Qed.
  Lemma have_ok g S : g < ng -> inv g S (items g) -> (forall m, m < MN g -> nth m (s_have S) 0 = nci (nth m (MC g) [])) /\ (forall m, m < MN g -> nth m (s_annoy S) 0 = nan (nth m (MC g) [])) /\
    (forall c, c < CN g -> nth c (s_get S) 0 = list_sum (map nci (filter (fun D => cnr g D =? c) (MC g)))) /\ mat (s_ci S) (MN g + 1) (CN g) (fun m c => if m <? MN g then if cnr g (nth m (MC g) []) =? c then nci (nth m (MC g) []) else 0 else nth c (nth m (s_ci S) []) 0).
  Proof.
    intros Hg (I1 & (I2 & I2') & (I3 & I3') & (I4 & I4') & _). assert (P := items_perm g Hg). split; [|split; [|split]].
    - intros m Hm. rewrite I3' by auto. rewrite (cntb_perm _ _ _ P). unfold eitems. rewrite (cntb_flat ci_i (fun D => mnr g D =? m)). rewrite mnr_filter by auto. cbn [map list_sum fold_right]. rewrite Nat.add_0_r. reflexivity.
    - intros m Hm. rewrite I4' by auto. rewrite (cntb_perm _ _ _ P). unfold eitems. rewrite (cntb_flat an_i (fun D => mnr g D =? m)). rewrite mnr_filter by auto. cbn [map list_sum fold_right]. rewrite Nat.add_0_r. reflexivity.
    - intros c Hc. rewrite I2' by auto. rewrite (cntb_perm _ _ _ P). unfold eitems. rewrite (cntb_flat ci_i (fun D => cnr g D =? c)). reflexivity.
    - split; [apply I1|]. split; [apply I1|]. intros m c Hm Hc. destruct (Nat.ltb_spec m (MN g)); auto. destruct I1 as (_ & _ & I1). rewrite I1 by auto. rewrite (cntb_perm _ _ _ P). unfold eitems. rewrite (cntb_ext _ (fun x => (ci_i x && (cnr g (fst x) =? c)) && (mnr g (fst x) =? m))). 2: { intros x _. destruct (ci_i x), (mnr g (fst x) =? m), (cnr g (fst x) =? c); auto. }
      rewrite (cntb_flat (fun x => ci_i x && (cnr g (fst x) =? c)) (fun D => mnr g D =? m)). rewrite mnr_filter by auto. cbn [map list_sum fold_right fst]. rewrite Nat.add_0_r. destruct (_ =? c). unfold nci. apply cntb_ext. intros x _. rewrite andb_true_r. reflexivity. apply cntb_false. intros x _. apply andb_false_r.
  Qed.
End GE4.
