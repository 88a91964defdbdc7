(** Lemmas for C107. *)
From Verif Require Import Base EQCModel ArraysModel ArraysProofs CtrProofs2 GCProofs PresProofs FLoopModel FLoopSpec.
From Coq Require Import Lia.
Local Open Scope nat_scope.

Section R.
Variables (M : lrank) (nf : nat) (OK : mesh_ok M nf) (v : nat).
Definition linv (S : nat -> Prop) (l : list Z) : Prop := StronglySorted Z.lt l /\ forall x, In x l <-> exists f, x = Z.of_nat f /\ S f /\ loop_facet M v f.
Lemma rd_err {A} (a : list A) i x : nth_error a i = Some x -> rd a i = Ret x.
Proof. unfold rd. now intros ->. Qed.
Lemma ne_some {A} (a : list A) i : i < length a -> exists x, nth_error a i = Some x.
Proof. intros H. destruct (nth_error a i) eqn:E; eauto. apply nth_error_None in E. lia. Qed.
Lemma rel_run f : f < nf -> exists b, relFacet M f = Ret b /\ (b = true <-> active M f).
Proof. intros H. rewrite <- (mk_ac M nf OK) in H. destruct (ne_some _ _ H) as (b & E). exists b. split. now apply rd_err. unfold active. rewrite E. split; congruence. Qed.
Lemma master_run f : f < nf -> exists b, masterOfFacet M f = Ret b /\ (b = true <-> lowest M f).
Proof.
  intros H. unfold masterOfFacet, lowest. rewrite <- (mk_fd M nf OK) in H. destruct (ne_some _ _ H) as (dps & E). rewrite (rd_err _ _ _ E). cbn [bind]. pose proof (mk_dps M nf OK dps (nth_error_In _ _ E)) as SS. destruct dps as [|d dps]; cbn [length Nat.eqb].
  - exists true. split; auto. split; auto. intros _. exists []. split; auto. intros p [].
  - unfold rd. cbn [nth_error bind]. eexists. split. reflexivity. rewrite Nat.ltb_lt. apply StronglySorted_inv in SS as (_ & F). rewrite Forall_forall in F. split.
    + intros L. exists (d :: dps). split; auto. intros p [<-|I]; auto. specialize (F p I). lia.
    + intros (x & Q & L). rewrite E in Q. injection Q as <-. apply L. now left.
Qed.
Lemma free_run f : active M f -> exists b, isFree M f = Ret b /\ (b = true <-> free_facet M f).
Proof.
  intros A. unfold isFree, free_facet. destruct (lr_free M) as [free|] eqn:FR. 2:{ exists true. tauto. }
  destruct (mk_dof M nf OK f free FR A) as (d & rest & E & Hd). rewrite (rd_err _ _ _ E). cbn [bind]. unfold rd at 1. cbn [nth_error bind]. destruct (Z.ltb_spec (Z.of_nat d) 0); [lia|]. rewrite Nat2Z.id. destruct (ne_some _ _ Hd) as (b & Eb). exists b. split. now apply rd_err. split.
  - intros ->. exists d, rest. auto.
  - intros (d' & r' & Q & Q2). rewrite E in Q. injection Q as Q _. apply Nat2Z.inj in Q. subst d'. congruence.
Qed.
Lemma fm_run f : f < nf -> active M f -> exists b, freeMaster M f = Ret b /\ (b = true <-> free_facet M f /\ lowest M f).
Proof.
  intros H A. unfold freeMaster. destruct (free_run f A) as (b & E & B). rewrite E. cbn [bind]. destruct b.
  - destruct (master_run f H) as (c & E2 & C). exists c. split; auto. tauto.
  - exists false. split; auto. split. discriminate. intros (X & _). apply B in X. discriminate.
Qed.
Lemma insert_run S l f : linv S l -> loop_facet M v f -> exists l', insertFacet l f = Ret l' /\ linv (fun g => S g \/ g = f) l'.
Proof.
  intros (SS & V) LF. unfold insertFacet. destruct (insert_nodups_spec (Z.of_nat f) l SS) as (A & B). destruct (in_dec Z.eq_dec (Z.of_nat f) l) as [I|I].
  - rewrite (A I). cbn [bind]. exists l. split; auto. split; auto. intros x. rewrite V. split; intros (g & -> & X & Y).
    exists g; auto. destruct X as [X| ->]. exists g; auto. apply V in I as (g & Q & X). apply Nat2Z.inj in Q. subst g. exists f. tauto.
  - destruct (B I) as (l' & E & SS' & P). rewrite E. cbn [bind]. exists l'. split; auto. split; auto. intros x. split.
    + intros X. apply (Permutation_in _ P) in X as [<-|X]. exists f; auto. apply V in X as (g & -> & X & Y). exists g; auto.
    + intros (g & -> & [X| ->] & Y); apply (Permutation_in _ (Permutation_sym P)). right. apply V. exists g; auto. now left.
Qed.
Lemma keep_run S l f : linv S l -> ~ loop_facet M v f -> linv (fun g => S g \/ g = f) l.
Proof. intros (SS & V) N. split; auto. intros x. rewrite V. split; intros (g & -> & X & Y). exists g; auto. destruct X as [X| ->]. exists g; auto. contradiction. Qed.

Definition step_ok (step : list Z -> nat -> res (list Z)) (f : nat) : Prop := forall S l, linv S l -> exists l', step l f = Ret l' /\ linv (fun g => S g \/ g = f) l'.
Lemma surf_step f : f < nf -> touches M f v -> step_ok (surfFacet M) f.
Proof.
  intros H T S l I. unfold surfFacet. destruct (rel_run f H) as (r & E & R). rewrite E. cbn [bind]. destruct r.
  2:{ exists l. split; auto. apply keep_run; auto. intros (X & _). apply R in X. discriminate. }
  destruct (fm_run f H) as (b & E2 & B). now apply R. rewrite E2. cbn [bind]. destruct b.
  - apply insert_run; auto. destruct R, B. unfold loop_facet. tauto.
  - exists l. split; auto. apply keep_run; auto. intros (_ & X & _ & Y). destruct B as (_ & B). discriminate B; auto.
Qed.
Lemma vol2_step f : lr_2d M = true -> f < nf -> step_ok (volFacet2D M v) f.
Proof.
  intros D H S l I. unfold volFacet2D. destruct (rel_run f H) as (r & E & R). rewrite E. cbn [bind]. destruct r.
  2:{ exists l. split; auto. apply keep_run; auto. intros (X & _). apply R in X. discriminate. }
  assert (H' := H). rewrite <- (mk_fn M nf OK) in H'. destruct (ne_some _ _ H') as (vs & Ev). rewrite (rd_err _ _ _ Ev). cbn [bind]. pose proof (mk_2d M nf OK D vs (nth_error_In _ _ Ev)) as L2. destruct vs as [|v0 [|v1 [|]]]; cbn in L2; try lia. unfold rd at 1. cbn [nth_error bind].
  assert (T : exists t, (if v0 =? v then Ret true else v1 <- rd [v0; v1] 1 ;; Ret (v1 =? v)) = Ret t /\ (t = true <-> touches M f v)).
  { unfold touches. destruct (Nat.eqb_spec v0 v) as [->|N]. exists true. split; auto. split; auto. intros _. exists [v; v1]. split; auto. now left.
    cbn. eexists. split. reflexivity. rewrite Nat.eqb_eq. split. intros ->. exists [v0; v]. split; auto. right. now left. intros (w & Q & X). rewrite Ev in Q. injection Q as <-. destruct X as [X|[X|[]]]; congruence. }
  destruct T as (t & Et & T). rewrite Et. cbn [bind]. destruct t.
  2:{ exists l. split; auto. apply keep_run; auto. intros (_ & _ & X & _). apply T in X. discriminate. }
  destruct (fm_run f H) as (b & E2 & B). now apply R. rewrite E2. cbn [bind]. destruct b.
  - apply insert_run; auto. destruct R, B, T. unfold loop_facet. tauto.
  - exists l. split; auto. apply keep_run; auto. intros (_ & X & _ & Y). destruct B as (_ & B). discriminate B; auto.
Qed.
Lemma anyEdge_run f l : forall es, anyEdge v f es l = if existsb (Nat.eqb v) es then insertFacet l f else Ret l.
Proof. induction es as [|e es IH]; auto. cbn. rewrite (Nat.eqb_sym v e). destruct (e =? v); auto. Qed.
Lemma vol3_step f : f < nf -> step_ok (volFacet3D M v) f.
Proof.
  intros H S l I. unfold volFacet3D. destruct (rel_run f H) as (r & E & R). rewrite E. cbn [bind]. destruct r.
  2:{ exists l. split; auto. apply keep_run; auto. intros (X & _). apply R in X. discriminate. }
  destruct (fm_run f H) as (b & E2 & B). now apply R. rewrite E2. cbn [bind]. destruct b.
  2:{ exists l. split; auto. apply keep_run; auto. intros (_ & X & _ & Y). destruct B as (_ & B). discriminate B; auto. }
  assert (H' := H). rewrite <- (mk_fn M nf OK) in H'. destruct (ne_some _ _ H') as (vs & Ev). rewrite (rd_err _ _ _ Ev). cbn [bind]. rewrite anyEdge_run. destruct (existsb (Nat.eqb v) vs) eqn:Q.
  - apply insert_run; auto. apply existsb_exists in Q as (w & X & Y). apply Nat.eqb_eq in Y. subst w. destruct R, B. unfold loop_facet, touches. intuition. exists vs; auto.
  - exists l. split; auto. apply keep_run; auto. intros (_ & _ & (w & X & Y) & _). rewrite Ev in X. injection X as <-. assert (existsb (Nat.eqb v) vs = true). apply existsb_exists. exists v. split; auto. apply Nat.eqb_refl. congruence.
Qed.
Lemma linv_ext S S' l : (forall f, S f <-> S' f) -> linv S l -> linv S' l.
Proof. intros E (A & B). split; auto. intros x. rewrite B. split; intros (f & X & Y & Z0); exists f; split; auto; split; auto; apply E; auto. Qed.
Lemma facs_run step : forall fs, (forall f, In f fs -> step_ok step f) -> forall S l, linv S l -> exists l', foldM step fs l = Ret l' /\ linv (fun g => S g \/ In g fs) l'.
Proof.
  induction fs as [|f fs IH]; intros HF S l I. exists l. split; auto. eapply linv_ext; [|exact I]. cbn. tauto. cbn [foldM]. destruct (HF f (or_introl eq_refl) S l I) as (l1 & E & I1). rewrite E. cbn [bind]. destruct (IH (fun g X => HF g (or_intror X)) _ _ I1) as (l2 & E2 & I2). exists l2. split; auto. eapply linv_ext; [|exact I2]. cbn. intros g. split; intuition.
Qed.
Lemma els_run step els : (forall e f, In e els -> In v (le_nodes e) -> In f (le_fac e) -> step_ok step f) -> forall S l, linv S l ->
  exists l', foldM (fun l s => e <- rd els s ;; foldM step (le_fac e) l) (node_els els v) l = Ret l' /\ linv (fun g => S g \/ exists e, In e els /\ In v (le_nodes e) /\ In g (le_fac e)) l'.
Proof.
  intros HF. assert (NE : forall k, In k (node_els els v) <-> exists e, nth_error els k = Some e /\ In v (le_nodes e)).
  { intros k. unfold node_els. rewrite filter_In, in_seq. cbn [plus]. split.
    - intros ((_ & L) & X). destruct (ne_some _ _ L) as (e & E). exists e. split; auto. rewrite (nth_error_nth _ _ (mkLE [] []) E) in X. apply existsb_exists in X as (w & X & Y). apply Nat.eqb_eq in Y. now subst w.
    - intros (e & E & X). split. split. lia. apply nth_error_Some. congruence. rewrite (nth_error_nth _ _ (mkLE [] []) E). apply existsb_exists. exists v. split; auto. apply Nat.eqb_refl. }
  assert (G : forall ks, (forall k, In k ks -> In k (node_els els v)) -> forall S l, linv S l -> exists l', foldM (fun l s => e <- rd els s ;; foldM step (le_fac e) l) ks l = Ret l' /\ linv (fun g => S g \/ exists k e, In k ks /\ nth_error els k = Some e /\ In g (le_fac e)) l').
  { induction ks as [|k ks IH]; intros HK S l I. exists l. split; auto. eapply linv_ext; [|exact I]. intros f. split; auto. intros [X|(k & e & [] & _)]; auto.
    cbn [foldM]. destruct (proj1 (NE k) (HK k (or_introl eq_refl))) as (e & E & X). rewrite (rd_err _ _ _ E). cbn [bind]. destruct (facs_run step (le_fac e)) with (S := S) (l := l) as (l1 & E1 & I1); auto. intros f Hf. apply (HF e f); auto. eapply nth_error_In; eauto. rewrite E1. cbn [bind].
    destruct (IH (fun j J => HK j (or_intror J)) _ _ I1) as (l2 & E2 & I2). exists l2. split; auto. eapply linv_ext; [|exact I2]. intros g. cbn. split.
    - intros [[Y|Y]|(k' & e' & A & B & C)]; auto. right. exists k, e. auto. right. exists k', e'. auto.
    - intros [Y|(k' & e' & [<-|A] & B & C)]; auto. left. right. rewrite E in B. injection B as <-. auto. right. exists k', e'. auto. }
  intros S l I. destruct (G (node_els els v) (fun k X => X) S l I) as (l' & E & I'). exists l'. split; auto. eapply linv_ext; [|exact I']. intros g. cbn. split; (intros [Y|Y]; [auto|right]).
  - destruct Y as (k & e & A & B & C). exists e. apply NE in A as (e' & A & D). rewrite B in A. injection A as <-. split; auto. eapply nth_error_In; eauto.
  - destruct Y as (e & A & B & C). apply In_nth_error in A as (k & A). exists k, e. split; auto. apply NE. exists e. auto.
Qed.
Lemma loop_run volFacet : (forall f, f < nf -> step_ok (volFacet M v) f) -> exists l, makeFacetLoop M volFacet v = Ret l /\ lists (loop_facet M v) l.
Proof.
  intros HV. unfold makeFacetLoop. destruct (els_run (surfFacet M) (lr_sels M)) with (S := fun _ : nat => False) (l := @nil Z) as (l1 & E1 & I1).
  - intros e f A B C. apply surf_step. apply (mk_fac M nf OK e f); auto. apply in_or_app; auto. apply (mk_sel M nf OK e f v); auto.
  - split. constructor. intros x. split. intros []. intros (f & _ & [] & _).
  - rewrite E1. cbn [bind]. destruct (els_run (volFacet M v) (lr_els M)) with (2 := I1) as (l2 & E2 & I2).
    + intros e f A B C. apply HV. apply (mk_fac M nf OK e f); auto. apply in_or_app; auto.
    + exists l2. split; auto. destruct I2 as (SS & V). split; auto. intros x. rewrite V. split; intros (f & X & Y).
      * exists f. tauto.
      * exists f. split; auto. split; auto. right. assert (Hf : f < nf). { destruct Y as (A & _). rewrite <- (mk_ac M nf OK). apply nth_error_Some. unfold active in A. congruence. } destruct (mk_own M nf OK f Hf) as (e & A & B & C). exists e. split; auto. split; auto. apply C. apply Y.
Qed.
Lemma facetLoop_run : exists l, facetLoop M v = Ret l /\ lists (loop_facet M v) l.
Proof.
  unfold facetLoop. destruct (lr_2d M) eqn:D; apply loop_run; intros f H. now apply vol2_step. now apply vol3_step.
Qed.
End R.
