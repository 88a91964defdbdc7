(** C106: the elements, potential-space nodes and facets on which a space is defined. *)
From Verif Require Import Base EQCModel ReduceModel UtilProofs ReduceProofs CtrProofs2 GCProofs PresProofs FauxModel FauxSpec FauxProofs.
From Coq Require Import Lia.
Local Open Scope nat_scope.

Lemma mapM_ex {A B} (f : A -> res B) (P : A -> B -> Prop) l : (forall x, In x l -> exists y, f x = Ret y /\ P x y) -> exists ys, mapM f l = Ret ys /\ Forall2 P l ys.
Proof.
  induction l as [|x l IH]; intros F. exists []. split; auto. destruct (F x (or_introl eq_refl)) as (y & E & Q). destruct IH as (ys & E' & Q'). intros; apply F; now right. exists (y :: ys). cbn. rewrite E. cbn [bind]. rewrite E'. split; auto.
Qed.
Lemma F2_nth {A B} (P : A -> B -> Prop) l ys : Forall2 P l ys -> length l = length ys /\ forall i x d, nth_error l i = Some x -> P x (nth i ys d) /\ nth_error ys i = Some (nth i ys d).
Proof.
  induction 1 as [|x y l ys Hxy F IH]. split; auto. intros [|i]; discriminate. destruct IH as (L & N). split. cbn. congruence. intros [|i] x' d E; cbn in *. injection E as <-. auto. auto.
Qed.
(** the maps of one kind of nodes on all ranks *)
Lemma kind_ok (own : frank -> nat -> Prop) (ids : frank -> list nat) (cnt : frank -> nat) Rs marks : length marks = length Rs ->
  (forall r R, nth_error Rs r = Some R -> length (nth r marks []) = cnt R /\ forall k, nz (nth r marks []) k = true <-> own R k) ->
  exists M, mapM markToSubsetMappings (all_or (map ids Rs) marks) = Ret M /\ length M = length Rs /\
    forall r R d, nth_error Rs r = Some R -> let '(a, c, sub) := nth r M d in nth_error M r = Some (a, c, sub) /\ numbering (cnt R) (relevant own ids Rs R) c (fun k => rd a k) (fun i => rd sub i) /\ length a = cnt R /\ c <= cnt R.
Proof.
  intros LM HM. destruct (all_or_ok own ids Rs marks LM) as (LA & VA). { intros r R HR. now apply HM. }
  destruct (mapM_ex markToSubsetMappings (fun x y => let '(a, c, sub) := y in maps_ok (length x) (nz x) a c sub) (all_or (map ids Rs) marks)) as (M & E & F). { intros x _. destruct (maps_run x) as (a & c & sub & E & O). exists (a, c, sub). auto. }
  exists M. split; auto. apply F2_nth in F as (L & N). split. congruence. intros r R d HR. assert (Hr : r < length Rs) by (apply nth_error_Some; congruence). destruct (N r (nth r (all_or (map ids Rs) marks) []) d) as (P & Q). { apply nth_error_nth'. lia. }
  destruct (nth r M d) as [[a c] sub]. split; auto. destruct (VA r R HR) as (VL & V). destruct (HM r R HR) as (ML & _). rewrite VL, ML in P. split. 2:{ destruct P as [S1 S2 S3 _ _]. split; auto. rewrite S2, S1. rewrite <- (seq_length (cnt R) 0) at 2. clear. generalize (seq 0 (cnt R)). intros l. induction l as [|x l IH]; cbn; auto. destruct (nz _ x); cbn; lia. }
  eapply maps_numbering; eauto. intros k Hk. apply V. congruence.
Qed.
Definition els_spec (definedon : bool) Rs R (f : faux) : Prop :=
  if definedon then numbering (length (fr_els R)) (relevant own_el fr_gel Rs R) (n_el_rel f) (fun k => rd (a2r_el f) k) (fun i => rd (r2a_el f) i) /\ numbering (fr_npsn R) (relevant own_psn fr_gpsn Rs R) (n_psn_rel f) (fun k => rd (a2r_psn f) k) (fun i => rd (r2a_psn f) i)
  else n_el_rel f = length (fr_els R) /\ n_psn_rel f = fr_npsn R.
Lemma setup_ok definedon Rs : (forall R, In R Rs -> rank_ok R) -> exists F, setup definedon Rs = Ret F /\ length F = length Rs /\
  forall r R, nth_error Rs r = Some R -> exists f, nth_error F r = Some f /\ have_maps f = definedon /\ els_spec definedon Rs R f /\
    numbering (fr_nfac R) (relevant own_fac fr_gfac Rs R) (n_facet_rel f) (A2R_Facet f) (R2A_Facet f) /\ n_facet_rel f <= fr_nfac R /\
    length (rel_facets f) = fr_nfac R /\ forall k, nth k (rel_facets f) false = true <-> own_fac R k \/ k < n_facet_rel f.
Proof.
  intros OK. unfold setup.
  set (els := if definedon then _ else _). assert (EL : exists L, els = Ret L /\ length L = length Rs /\ forall r R, nth_error Rs r = Some R -> exists ae ne re ap np rp, nth_error L r = Some ((ae, ne, re), (ap, np, rp)) /\ forall af nf rf b, els_spec definedon Rs R (mkFA definedon ne ae re np ap rp nf af rf b)).
  { unfold els, els_spec. destruct definedon.
    - destruct (mapM_ex mark_els (fun R m => length (fst m) = length (fr_els R) /\ length (snd m) = fr_npsn R /\ (forall k, nz (fst m) k = true <-> own_el R k) /\ (forall k, nz (snd m) k = true <-> own_psn R k)) Rs) as (marks & E & F). { intros R I. destruct (mark_els_ok R (OK R I)) as (ae & ap & E & X). exists (ae, ap). auto. }
      rewrite E. cbn [bind]. apply F2_nth in F as (L & N).
      destruct (kind_ok own_el fr_gel (fun R => length (fr_els R)) Rs (map fst marks)) as (M1 & E1 & L1 & N1). now rewrite map_length. { intros r R HR. destruct (N r R ([], []) HR) as ((A1 & A2 & A3 & A4) & _). change (@nil Z) with (fst (@nil Z, @nil Z)). rewrite map_nth. auto. }
      destruct (kind_ok own_psn fr_gpsn fr_npsn Rs (map snd marks)) as (M2 & E2 & L2 & N2). now rewrite map_length. { intros r R HR. destruct (N r R ([], []) HR) as ((A1 & A2 & A3 & A4) & _). change (@nil Z) with (snd (@nil Z, @nil Z)). rewrite map_nth. auto. }
      rewrite E1. cbn [bind]. rewrite E2. cbn [bind]. eexists. split. reflexivity. rewrite combine_length. split. lia. intros r R HR. specialize (N1 r R ([], 0, []) HR). specialize (N2 r R ([], 0, []) HR). destruct (nth r M1 ([], 0, [])) as [[ae ne] re] eqn:Q1. destruct (nth r M2 ([], 0, [])) as [[ap np] rp] eqn:Q2. destruct N1 as (X1 & Y1 & _), N2 as (X2 & Y2 & _).
      exists ae, ne, re, ap, np, rp. split; [|intros; split; auto]. assert (r < length Rs) by (apply nth_error_Some; congruence). rewrite (nth_error_nth' _ (([], 0, []), ([], 0, []))) by (rewrite combine_length; lia). rewrite combine_nth by congruence. now rewrite Q1, Q2.
    - eexists. split. reflexivity. rewrite map_length. split; auto. intros r R HR. eexists _, _, _, _, _, _. split. erewrite map_nth_error by eauto. reflexivity. auto. }
  destruct EL as (L & EL & LL & NL). rewrite EL. cbn [bind]. clear EL els.
  destruct (mapM_ex mark_facets (fun R b => length b = fr_nfac R /\ forall k, nth k b false = true <-> own_fac R k) Rs) as (bits & EB & FB). { intros R I. exact (mark_facets_ok R (OK R I)). } rewrite EB. cbn [bind]. apply F2_nth in FB as (LB & NB).
  destruct (kind_ok own_fac fr_gfac fr_nfac Rs (map (map (fun b : bool => if b then 1%Z else 0%Z)) bits)) as (M & EM & LM & NM). now rewrite map_length.
  { intros r R HR. destruct (NB r R [] HR) as ((A1 & A2) & _). change (@nil Z) with (map (fun b : bool => if b then 1%Z else 0%Z) []). rewrite map_nth, map_length. split; auto. intros k. rewrite <- A2, nz_bits. tauto. }
  rewrite EM. cbn [bind].
  match goal with |- context [mapM ?G (seq 0 (length Rs))] => destruct (mapM_ex G (fun r f => forall R, nth_error Rs r = Some R -> have_maps f = definedon /\ els_spec definedon Rs R f /\
    numbering (fr_nfac R) (relevant own_fac fr_gfac Rs R) (n_facet_rel f) (A2R_Facet f) (R2A_Facet f) /\ n_facet_rel f <= fr_nfac R /\
    length (rel_facets f) = fr_nfac R /\ forall k, nth k (rel_facets f) false = true <-> own_fac R k \/ k < n_facet_rel f) (seq 0 (length Rs))) as (F & EF & FF) end.
  - intros r I. apply in_seq in I. destruct (nth_error Rs r) as [R|] eqn:HR; [|apply nth_error_None in HR; lia]. destruct (NL r R HR) as (ae & ne & re & ap & np & rp & Q & SP). unfold rd at 1. rewrite Q. cbn [bind]. specialize (NM r R ([], 0, []) HR). destruct (nth r M ([], 0, [])) as [[af nf] rf]. destruct NM as (Q2 & NU & La & Lc). unfold rd at 1. rewrite Q2. cbn [bind].
    destruct (NB r R [] HR) as ((A1 & A2) & Q3). unfold rd at 1. rewrite Q3. cbn [bind]. destruct (set_all true false (seq 0 nf) (nth r bits [])) as (b & E & L' & V). { intros j J. apply in_seq in J. rewrite A1. lia. } rewrite E. cbn [bind]. eexists. split. reflexivity. intros R' [= <-]. cbn. split; auto. split. apply SP. split. exact NU. split; auto. split. congruence.
    intros k. destruct (V k) as (V1 & V2). rewrite in_seq in V1, V2. cbn [plus] in V1, V2. destruct (Nat.lt_ge_cases k nf) as [Lk|Lk]. rewrite V1 by lia. split; auto. rewrite V2 by lia. rewrite A2. split; auto. intros [X|X]; auto. lia.
  - exists F. split; auto. apply F2_nth in FF as (LF & NF). rewrite seq_length in LF. split; auto. intros r R HR. assert (Hr : r < length Rs) by (apply nth_error_Some; congruence). destruct (nth_error F r) as [f|] eqn:Q; [|apply nth_error_None in Q; lia]. exists f. split; auto. destruct (NF r r f) as (P & _). rewrite (nth_error_nth' _ 0) by now rewrite seq_length. now rewrite seq_nth. rewrite (nth_error_nth _ _ f Q) in P. apply (P R HR).
Qed.

(** The setup succeeds.  Facets: the numbering covers exactly those that are facets of an element with the space defined, on this rank or on any other that has the facet.
    Elements and potential-space nodes: the same if the space has a definedon, else all of them, each with its own number *)
Theorem C106_numbering : forall definedon Rs, (forall R, In R Rs -> rank_ok R) -> exists F, setup definedon Rs = Ret F /\ length F = length Rs /\
  forall r R f, nth_error Rs r = Some R -> nth_error F r = Some f ->
    numbering (fr_nfac R) (relevant own_fac fr_gfac Rs R) (n_facet_rel f) (A2R_Facet f) (R2A_Facet f) /\
    numbering (length (fr_els R)) (fun k => definedon = true -> relevant own_el fr_gel Rs R k) (n_el_rel f) (A2R_EL f) (R2A_EL f) /\
    numbering (fr_npsn R) (fun k => definedon = true -> relevant own_psn fr_gpsn Rs R k) (n_psn_rel f) (A2R_PSN f) (R2A_PSN f).
Proof.
  intros definedon Rs OK. destruct (setup_ok definedon Rs OK) as (F & E & L & N). exists F. split; auto. split; auto. intros r R f HR HF. destruct (N r R HR) as (f' & HF' & HM & SP & NU & _). rewrite HF in HF'. injection HF' as <-. split; auto. unfold A2R_EL, R2A_EL, A2R_PSN, R2A_PSN. rewrite HM. unfold els_spec in SP. destruct definedon.
  - destruct SP as (S1 & S2). assert (IFF : forall n (rel : nat -> Prop) c a b, numbering n rel c a b -> numbering n (fun k => true = true -> rel k) c a b). { intros n rel c a b [A1 A2 A3 A4]. constructor; auto. intros i Hi. destruct (A1 i Hi) as (k & X1 & X2 & X3 & X4). exists k; auto. intros k Hk. destruct (A3 k Hk) as [X|(X & Y)]; [left; auto|right; split; [intros Z0; apply X, Z0; reflexivity|exact Y]]. } split; apply IFF; auto.
  - destruct SP as (-> & ->). assert (T : forall n (rel : nat -> Prop), numbering n (fun k => false = true -> rel k) n (fun k => Ret (Z.of_nat k)) (fun k => Ret k)). { intros n rel. constructor. intros i Hi. exists i. split; auto. split; auto. split; auto. discriminate. intros k Hk _. exists k; auto. intros k Hk. left. discriminate. intros i i' k k' A B [= <-] [= <-]. auto. } split; apply T.
Qed.
(** what IsElementRel and IsPSNRel say *)
Theorem C106_relevant : forall definedon Rs F, (forall R, In R Rs -> rank_ok R) -> setup definedon Rs = Ret F -> forall r R f, nth_error Rs r = Some R -> nth_error F r = Some f ->
  (forall k, k < length (fr_els R) -> exists b, IsElementRel f k = Ret b /\ (b = true <-> (definedon = true -> relevant own_el fr_gel Rs R k))) /\
  (forall k, k < fr_npsn R -> exists b, IsPSNRel f k = Ret b /\ (b = true <-> (definedon = true -> relevant own_psn fr_gpsn Rs R k))).
Proof.
  intros definedon Rs F OK EF r R f HR HF. destruct (setup_ok definedon Rs OK) as (F' & E & L & N). rewrite EF in E. injection E as <-. destruct (N r R HR) as (f' & HF' & HM & SP & _). rewrite HF in HF'. injection HF' as <-. unfold IsElementRel, IsPSNRel. rewrite HM. unfold els_spec in SP. destruct definedon.
  2:{ split; intros k _; exists true; (split; [reflexivity|]); split; auto; discriminate. }
  assert (G : forall n rel c a r2a, numbering n rel c (fun k => rd a k) r2a -> forall k, k < n -> exists b, (x <- rd a k ;; Ret (negb (x =? -1)%Z)) = Ret b /\ (b = true <-> (true = true -> rel k))).
  { intros n rel c a r2a [A1 A2 A3 A4] k Hk. destruct (A3 k Hk) as [X|(X & Q)].
    - destruct (A2 k Hk X) as (i & _ & Q & _). rewrite Q. cbn [bind]. eexists. split. reflexivity. split; auto. intros _. apply negb_true_iff, Z.eqb_neq. lia.
    - rewrite Q. cbn [bind]. eexists. split. reflexivity. cbn. split. discriminate. intros Y. destruct X. auto. }
  destruct SP as (S1 & S2). split; eapply G; eauto.
Qed.
(** The set of active facets contains the facets of the rank's own elements with the space defined and, besides, all facets with a number below the number of relevant facets *)
Theorem C106_active : forall definedon Rs F, (forall R, In R Rs -> rank_ok R) -> setup definedon Rs = Ret F -> forall r R f, nth_error Rs r = Some R -> nth_error F r = Some f ->
  forall k, k < fr_nfac R -> exists b, IsFacetRel f k = Ret b /\ (b = true <-> own_fac R k \/ k < n_facet_rel f).
Proof.
  intros definedon Rs F OK EF r R f HR HF k Hk. destruct (setup_ok definedon Rs OK) as (F' & E & L & N). rewrite EF in E. injection E as <-. destruct (N r R HR) as (f' & HF' & _ & _ & _ & _ & LB & V). rewrite HF in HF'. injection HF' as <-. exists (nth k (rel_facets f) false). split; auto. unfold IsFacetRel. apply rd_nth. lia.
Qed.
(** It is the set of relevant facets if these have the lowest numbers (in particular if all facets are relevant) *)
Theorem C106_active_lowest : forall definedon Rs F, (forall R, In R Rs -> rank_ok R) -> setup definedon Rs = Ret F -> forall r R f, nth_error Rs r = Some R -> nth_error F r = Some f ->
  (forall k k', k < k' -> k' < fr_nfac R -> relevant own_fac fr_gfac Rs R k' -> relevant own_fac fr_gfac Rs R k) ->
  forall k, k < fr_nfac R -> exists b, IsFacetRel f k = Ret b /\ (b = true <-> relevant own_fac fr_gfac Rs R k).
Proof.
  intros definedon Rs F OK EF r R f HR HF DC k Hk. destruct (C106_active definedon Rs F OK EF r R f HR HF k Hk) as (b & Q & B). exists b. split; auto. rewrite B. destruct (setup_ok definedon Rs OK) as (F' & E & L & N). rewrite EF in E. injection E as <-. destruct (N r R HR) as (f' & HF' & _ & _ & [A1 A2 A3 A4] & _). rewrite HF in HF'. injection HF' as <-.
  assert (OWN : own_fac R k -> relevant own_fac fr_gfac Rs R k). { intros X. exists R, k. split; auto. eapply nth_error_In; eauto. }
  split.
  - intros [X|X]; auto. assert (G : forall i, i < n_facet_rel f -> exists k', R2A_Facet f i = Ret k' /\ i <= k' /\ k' < fr_nfac R /\ relevant own_fac fr_gfac Rs R k').
    { induction i as [|i IH]; intros Hi; destruct (A1 _ Hi) as (k' & B1 & B2 & B3 & _); exists k'; split; auto; split; auto. lia. destruct IH as (k0 & C1 & C2 & _). lia. pose proof (A4 i (S i) k0 k' ltac:(lia) Hi C1 B1). lia. }
    destruct (G k X) as (k' & _ & G1 & G2 & G3). destruct (Nat.eq_dec k k') as [->|]; auto. apply (DC k k'); auto. lia.
  - intros X. right. assert (G : forall k, k < fr_nfac R -> relevant own_fac fr_gfac Rs R k -> exists i, k <= i /\ i < n_facet_rel f /\ R2A_Facet f i = Ret k).
    { clear k Hk Q B OWN X. induction k as [|k IH]; intros Hk X; destruct (A2 _ Hk X) as (i & B1 & B2 & B3); exists i; split; auto. lia. destruct IH as (i0 & C1 & C2 & C3). lia. apply (DC k (S k)); auto. destruct (Nat.lt_trichotomy i i0) as [D|[D|D]]; [|subst i0; rewrite B3 in C3; injection C3; lia|lia]. pose proof (A4 i i0 (S k) k D C2 B3 C3). lia. }
    destruct (G k Hk X) as (i & G1 & G2 & _). lia.
Qed.

(** two ranks; rank 0: the space is defined on the middle one of three triangles; its facet 6 is facet 0 of rank 1 *)
Definition R0 : frank := mkFR [mkFE false [0; 1; 2] [0; 1; 2]; mkFE true [1; 2; 3] [2; 3; 4]; mkFE false [2; 3; 4] [4; 5; 6]] 5 7 [0; 1; 2] [0; 1; 2; 3; 4] [0; 1; 2; 3; 4; 5; 6].
Definition R1 : frank := mkFR [mkFE true [0; 1; 2] [0; 1; 2]] 3 3 [3] [3; 4; 5] [6; 7; 8].
Lemma Rs_ok : forall R, In R [R0; R1] -> rank_ok R.
Proof. intros R [<-|[<-|[]]]; constructor; try reflexivity; intros e j I J; cbn in I; repeat (destruct I as [<-|I]; [cbn in J; cbn; intuition lia|]); destruct I. Qed.
Definition F01 : list faux := [
  mkFA true 1 [-1; 0; -1]%Z [1] 4 [-1; 0; 1; 2; 3]%Z [1; 2; 3; 4] 4 [-1; -1; 0; 1; 2; -1; 3]%Z [2; 3; 4; 6] [true; true; true; true; true; false; false];
  mkFA true 1 [0]%Z [0] 3 [0; 1; 2]%Z [0; 1; 2] 3 [0; 1; 2]%Z [0; 1; 2] [true; true; true]].
Example C106_ex : (forall R, In R [R0; R1] -> rank_ok R) /\ setup true [R0; R1] = Ret F01.
Proof. split. exact Rs_ok. vm_compute. reflexivity. Qed.
(** all facets relevant: the hypothesis of C106_active_lowest holds *)
Example C106_lowest_ex : (forall R, In R [R1] -> rank_ok R) /\ (exists F, setup false [R1] = Ret F) /\ forall k k', k < k' -> k' < fr_nfac R1 -> relevant own_fac fr_gfac [R1] R1 k' -> relevant own_fac fr_gfac [R1] R1 k.
Proof.
  split. intros R [<-|[]]. apply Rs_ok. right. now left. split. eexists. vm_compute. reflexivity. intros k k' A B _. cbn in B. exists R1, k. split. now left. split; auto. exists (mkFE true [0; 1; 2] [0; 1; 2]). split. now left. split; auto. cbn. lia.
Qed.
(** The set of active facets is wrong in general: facet 0 belongs to no element with the space defined, is active and has no number; facet 6 has the number 3 and is not active *)
Theorem C106_active_refuted : exists Rs F R f k k', (forall R, In R Rs -> rank_ok R) /\ setup true Rs = Ret F /\ nth_error Rs 0 = Some R /\ nth_error F 0 = Some f /\ k < fr_nfac R /\ k' < fr_nfac R /\
  ~ relevant own_fac fr_gfac Rs R k /\ IsFacetRel f k = Ret true /\ A2R_Facet f k = Ret (-1)%Z /\
  relevant own_fac fr_gfac Rs R k' /\ IsFacetRel f k' = Ret false /\ A2R_Facet f k' = Ret 3%Z.
Proof.
  exists [R0; R1], F01, R0, (nth 0 F01 (mkFA true 0 [] [] 0 [] [] 0 [] [] [])), 0, 6. split. exact Rs_ok. split. vm_compute. reflexivity. split; auto. split; auto. split. cbn. lia. split. cbn. lia. split.
  { intros (R & k & I & (e & Ie & D & J) & E). cbn in I. destruct I as [<-|[<-|[]]]; cbn in Ie; repeat (destruct Ie as [<-|Ie]; [cbn in D, J, E; try discriminate; repeat (destruct J as [<-|J]; [discriminate|]); destruct J|]); destruct Ie. }
  split. reflexivity. split. reflexivity. split; [|split; reflexivity]. exists R1, 0. split. right. now left. split; auto. exists (mkFE true [0; 1; 2] [0; 1; 2]). split. now left. split; auto. now left.
Qed.
Print Assumptions C106_numbering.
Print Assumptions C106_relevant.
Print Assumptions C106_active.
Print Assumptions C106_active_lowest.
Print Assumptions C106_active_refuted.
