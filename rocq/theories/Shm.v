(** Shared-memory tasks: programs that read and write single memory cells, run in an arbitrary interleaving.
    This is the execution model used for the task-parallel loops of the smoothers (ngcore TaskManager: ParallelForRange,
    SharedLoop2): the iterations of one parallel loop may be interleaved arbitrarily, access by access (a "+=" is a read
    followed by a write), and the loop ends when all of them are done.  Memory is sequentially consistent; for programs
    without data races (see [race]) that is what C++ guarantees.  Models no particular function of /repo. *)
From Verif Require Import Base.

Section Shm.
  Context {V Loc : Type} (eqb : Loc -> Loc -> bool).
  Inductive prog : Type :=
  | Done
  | Rd (l : Loc) (k : V -> prog)
  | Wr (l : Loc) (v : V) (k : prog).
  Definition mem := Loc -> V.
  Definition mset (m : mem) (l : Loc) (v : V) : mem := fun l' => if eqb l l' then v else m l'.
  Definition meq (m m' : mem) : Prop := forall l, m l = m' l.

  (** one access of one of the tasks *)
  Inductive step : mem * list prog -> mem * list prog -> Prop :=
  | step_rd m pre l k post : step (m, pre ++ Rd l k :: post) (m, pre ++ k (m l) :: post)
  | step_wr m pre l v k post : step (m, pre ++ Wr l v k :: post) (mset m l v, pre ++ k :: post).
  Inductive steps : mem * list prog -> mem * list prog -> Prop :=
  | steps_refl s : steps s s
  | steps_cons s1 s2 s3 : step s1 s2 -> steps s2 s3 -> steps s1 s3.
  Definition finished (ps : list prog) : Prop := Forall (eq Done) ps.
  (** [exec m ps m']: some schedule of the tasks ps, started in m, runs all of them to the end and leaves m' *)
  Definition exec (m : mem) (ps : list prog) (m' : mem) : Prop :=
    exists ps', steps (m, ps) (m', ps') /\ finished ps'.
  (** parallel loops one after the other (a barrier after each) *)
  Inductive exec_phases : mem -> list (list prog) -> mem -> Prop :=
  | ep_nil m : exec_phases m [] m
  | ep_cons m ps pss m1 m2 : exec m ps m1 -> exec_phases m1 pss m2 -> exec_phases m (ps :: pss) m2.

  (** two tasks are about to access the same cell and one of them writes *)
  Definition next_acc (p : prog) : option (Loc * bool) :=
    match p with Done => None | Rd l _ => Some (l, false) | Wr l _ _ => Some (l, true) end.
  Definition race (ps : list prog) : Prop :=
    exists i j l w1 w2, i <> j /\
      match nth_error ps i with Some p => next_acc p | None => None end = Some (l, w1) /\
      match nth_error ps j with Some p => next_acc p | None => None end = Some (l, w2) /\ (w1 || w2 = true).

  (** running one task alone *)
  Fixpoint run (p : prog) (m : mem) : mem :=
    match p with Done => m | Rd l k => run (k (m l)) m | Wr l v k => run k (mset m l v) end.
  Definition run_all (ps : list prog) (m : mem) : mem := fold_left (fun m p => run p m) ps m.
  Definition run_phases (pss : list (list prog)) (m : mem) : mem := fold_left (fun m ps => run_all ps m) pss m.

  (** all reads of p are in R and all its writes in W, whatever values it reads *)
  Fixpoint within (R W : Loc -> Prop) (p : prog) : Prop :=
    match p with Done => True | Rd l k => R l /\ forall v, within R W (k v) | Wr l v k => W l /\ within R W k end.
  Definition fp := ((Loc -> Prop) * (Loc -> Prop))%type.
  Definition fits (f : fp) (p : prog) : Prop := within (fst f) (snd f) p.
  Definition apart (f g : fp) : Prop :=
    forall l, (snd f l -> ~ fst g l /\ ~ snd g l) /\ (snd g l -> ~ fst f l /\ ~ snd f l).
  Definition pool_ok (fs : list fp) (ps : list prog) : Prop := Forall2 fits fs ps /\ ForallOrdPairs apart fs.

  Context (eqb_ok : forall a b, reflect (a = b) (eqb a b)).

  Lemma mset_same m l v : mset m l v l = v.
  Proof. unfold mset. destruct (eqb_ok l l); congruence. Qed.
  Lemma mset_other m l v l' : l <> l' -> mset m l v l' = m l'.
  Proof. unfold mset. destruct (eqb_ok l l'); congruence. Qed.
  Lemma meq_set m m' l v : meq m m' -> meq (mset m l v) (mset m' l v).
  Proof. intros H l'. unfold mset. now destruct (eqb l l'). Qed.
  Lemma meq_trans m1 m2 m3 : meq m1 m2 -> meq m2 m3 -> meq m1 m3.
  Proof. intros H1 H2 l. now rewrite H1. Qed.
  Lemma meq_sym m1 m2 : meq m1 m2 -> meq m2 m1.
  Proof. intros H l. now rewrite H. Qed.
  Lemma meq_refl m : meq m m. Proof. intros l; auto. Qed.
  Lemma run_meq p : forall m m', meq m m' -> meq (run p m) (run p m').
  Proof.
    induction p as [|l k IH|l v k IH]; intros m m' H; simpl; auto.
    - rewrite <- H. apply IH; auto.
    - apply IH. now apply meq_set.
  Qed.
  Lemma run_all_meq ps : forall m m', meq m m' -> meq (run_all ps m) (run_all ps m').
  Proof. induction ps; intros m m' H; simpl; auto. apply IHps. now apply run_meq. Qed.
  Lemma run_phases_meq pss : forall m m', meq m m' -> meq (run_phases pss m) (run_phases pss m').
  Proof. induction pss; intros m m' H; simpl; auto. apply IHpss. now apply run_all_meq. Qed.
  Lemma run_frame R W p : forall m l, within R W p -> ~ W l -> run p m l = m l.
  Proof.
    induction p as [|l' k IH|l' v k IH]; intros m l H Hl; simpl in *; auto.
    - destruct H. now apply IH.
    - destruct H. rewrite IH by auto. apply mset_other. intros ->; auto.
  Qed.
  Lemma run_set R W p : forall m l v, within R W p -> ~ R l -> ~ W l -> meq (run p (mset m l v)) (mset (run p m) l v).
  Proof.
    induction p as [|l' k IH|l' w k IH]; intros m l v H Hr Hw; simpl in *.
    - apply meq_refl.
    - destruct H. rewrite mset_other by (intros ->; auto). apply IH; auto.
    - destruct H. eapply meq_trans; [|apply IH; auto].
      apply run_meq. intros q. unfold mset. destruct (eqb_ok l' q), (eqb_ok l q); auto. subst. contradiction.
  Qed.
  Lemma apart_l f g l : apart f g -> snd f l -> ~ fst g l /\ ~ snd g l.
  Proof. intros H. apply (H l). Qed.
  Lemma apart_r f g l : apart f g -> snd g l -> ~ fst f l /\ ~ snd f l.
  Proof. intros H. apply (H l). Qed.
  Lemma run_comm f g p q : fits f p -> fits g q -> apart f g -> forall m, meq (run p (run q m)) (run q (run p m)).
  Proof.
    unfold fits. intros Hp Hq HA. revert Hp. induction p as [|l k IH|l v k IH]; intros Hp m; simpl in *.
    - apply meq_refl.
    - destruct Hp as [Hr Hk]. rewrite (run_frame (fst g) (snd g)) by (auto; intros Hw; destruct (apart_r _ _ _ HA Hw); auto). apply IH; auto.
    - destruct Hp as [Hw Hk]. eapply meq_trans; [|apply IH; auto]. apply run_meq. apply meq_sym.
      destruct (apart_l _ _ _ HA Hw). now apply (run_set (fst g) (snd g)).
  Qed.

  (** the pool, split at the task that moves *)
  Lemma run_all_app a b m : run_all (a ++ b) m = run_all b (run_all a m).
  Proof. unfold run_all. apply fold_left_app. Qed.
  Lemma run_all_frame fs ps : Forall2 fits fs ps -> forall m l, (forall f, In f fs -> ~ snd f l) -> run_all ps m l = m l.
  Proof.
    induction 1; intros m q H'; simpl; auto. rewrite IHForall2 by (intros; apply H'; now right).
    eapply run_frame; eauto. apply H'. now left.
  Qed.
  Lemma run_all_set fs ps : Forall2 fits fs ps -> forall m l v, (forall f, In f fs -> ~ fst f l /\ ~ snd f l) ->
    meq (run_all ps (mset m l v)) (mset (run_all ps m) l v).
  Proof.
    induction 1; intros m q v H'; simpl. apply meq_refl.
    eapply meq_trans; [|apply IHForall2; intros; apply H'; now right].
    apply run_all_meq. eapply run_set; eauto; apply (H' x); now left.
  Qed.
  Lemma FOP_app {A} (R : A -> A -> Prop) a b : ForallOrdPairs R (a ++ b) ->
    ForallOrdPairs R a /\ ForallOrdPairs R b /\ forall x y, In x a -> In y b -> R x y.
  Proof.
    induction a; simpl; intros H.
    - repeat split; auto. constructor. intros; easy.
    - inversion H; subst. destruct (IHa H3) as (H4 & H5 & H6). rewrite Forall_app in H2. destruct H2 as [Ha Hb].
      rewrite Forall_forall in Hb. split; [constructor; auto|]. split; auto. intros x y [->|Hx] Hy; auto.
  Qed.
  Lemma apart_sym f g : apart f g -> apart g f.
  Proof. intros H l. split; intros; apply H; auto. Qed.
  Lemma pool_split fs pre p post : pool_ok fs (pre ++ p :: post) ->
    exists fs1 f fs2, fs = fs1 ++ f :: fs2 /\ Forall2 fits fs1 pre /\ fits f p /\ Forall2 fits fs2 post /\
      (forall g, In g (fs1 ++ fs2) -> apart f g).
  Proof.
    intros [H1 H2]. apply Forall2_app_inv_r in H1 as (fs1 & fs' & Ha & Hb & ->).
    inversion Hb; subst. exists fs1, x, l. split; auto; split; auto; split; auto; split; auto. intros g H.
    apply FOP_app in H2 as (_ & H2 & H5); inversion H2; subst; rewrite Forall_forall in H6;
    apply in_app_or in H as [Hg|Hg].
    - apply apart_sym. apply H5; auto. now left.
    - apply H6; auto.
  Qed.
  Lemma step_inv fs m ps m' ps' : pool_ok fs ps -> step (m, ps) (m', ps') ->
    pool_ok fs ps' /\ meq (run_all ps m) (run_all ps' m').
  Proof.
    intros HP HS. inversion HS; subst.
    - destruct (pool_split _ _ _ _ HP) as (fs1 & f & fs2 & -> & F1 & [HR Hf] & F2 & HA). split.
      + split; [|apply HP]. apply Forall2_app; auto. constructor; auto. apply (Hf (m' l)).
      + rewrite !run_all_app. simpl. rewrite (run_all_frame fs1 pre); auto. apply meq_refl.
        intros g Hg Hw. destruct (apart_r f g l (HA g ltac:(apply in_or_app; now left)) Hw). auto.
    - destruct (pool_split _ _ _ _ HP) as (fs1 & f & fs2 & -> & F1 & [HW Hf] & F2 & HA). split.
      + split; [|apply HP]. apply Forall2_app; auto.
      + rewrite !run_all_app. simpl. apply run_all_meq. apply run_meq. apply meq_sym. apply run_all_set with fs1; auto.
        intros g Hg. apply (apart_l f g l (HA g ltac:(apply in_or_app; now left)) HW).
  Qed.
  Lemma steps_inv fs s s' : steps s s' -> pool_ok fs (snd s) ->
    pool_ok fs (snd s') /\ meq (run_all (snd s) (fst s)) (run_all (snd s') (fst s')).
  Proof.
    induction 1 as [|[m1 p1] [m2 p2] [m3 p3] H1 H2 IH]; intros HP; simpl in *. split; auto using meq_refl.
    destruct (step_inv fs _ _ _ _ HP H1) as [H3 H4]. destruct (IH H3) as [H5 H6]. split; auto. eapply meq_trans; eauto.
  Qed.
  Lemma run_all_finished ps m : finished ps -> run_all ps m = m.
  Proof. induction 1; simpl; auto. subst; auto. Qed.

  (** every schedule of tasks with separate footprints ends in the memory of the sequential run *)
  Theorem exec_deterministic fs ps m m' : pool_ok fs ps -> exec m ps m' -> meq m' (run_all ps m).
  Proof.
    intros HP (ps' & HS & HF). apply (steps_inv fs) in HS; auto. simpl in HS. destruct HS as [_ HS].
    rewrite (run_all_finished ps') in HS by auto. now apply meq_sym.
  Qed.
  (** ... no schedule ever reaches a data race ... *)
  Theorem no_race fs ps m s : pool_ok fs ps -> steps (m, ps) s -> ~ race (snd s).
  Proof.
    intros HP HS HR. apply (steps_inv fs) in HS as [[H1 H2] _]; auto. clear HP ps m. destruct s as [m ps]. simpl in *.
    destruct HR as (i & j & l & w1 & w2 & Hij & Ei & Ej & Hw).
    assert (S : forall k w, match nth_error ps k with Some p => next_acc p | None => None end = Some (l, w) ->
                exists f, nth_error fs k = Some f /\ (if w then snd f l else fst f l)).
    { clear - H1. induction H1; intros [|k] w E; simpl in *; try discriminate.
      - exists x. split; auto. destruct y; simpl in *; try discriminate; injection E as -> <-; apply H.
      - apply IHForall2; auto. }
    apply S in Ei as (f & Ef & Hf). apply S in Ej as (g & Eg & Hg). clear S H1.
    assert (HA : apart f g).
    { clear - H2 Hij Ef Eg. revert i j Hij Ef Eg. induction H2 as [|a l' H H2 IH]; intros [|i] [|j] Hij Ef Eg; simpl in *; try discriminate; try congruence.
      - injection Ef as ->. rewrite Forall_forall in H. apply H. eapply nth_error_In; eauto.
      - injection Eg as ->. rewrite Forall_forall in H. apply apart_sym, H. eapply nth_error_In; eauto.
      - eapply (IH i j); eauto. }
    specialize (HA l). destruct w1, w2; try discriminate; tauto.
  Qed.
  (** ... some task can move unless all are done ... *)
  Lemma progress m ps : finished ps \/ exists s, step (m, ps) s.
  Proof.
    induction ps as [|p ps IH]. left; constructor.
    destruct p as [|l k|l v k].
    - destruct IH as [IH|[[m' ps'] H]]. left; constructor; auto.
      right. inversion H; subst.
      + eexists. apply (step_rd m' (Done :: pre)).
      + eexists. apply (step_wr m (Done :: pre)).
    - right. eexists. apply (step_rd m []).
    - right. eexists. apply (step_wr m []).
  Qed.
  (** ... and every schedule ends *)
  Inductive psub : prog -> prog -> Prop :=
  | psub_rd l k v : psub (k v) (Rd l k)
  | psub_wr l v k : psub k (Wr l v k).
  Lemma psub_acc p : Acc psub p.
  Proof. induction p; constructor; intros q Hq; inversion Hq; subst; auto. Qed.
  Inductive lsub : list prog -> list prog -> Prop :=
  | ls_here p q ps : psub p q -> lsub (p :: ps) (q :: ps)
  | ls_there p ps qs : lsub ps qs -> lsub (p :: ps) (p :: qs).
  Lemma lsub_acc ps : Acc lsub ps.
  Proof.
    induction ps as [|p ps IH]. constructor; intros q Hq; inversion Hq.
    revert p. induction IH as [ps _ IHps]. intros p. induction (psub_acc p) as [p _ IHp].
    constructor. intros q Hq. inversion Hq; subst; auto.
  Qed.
  Lemma step_lsub s s' : step s s' -> lsub (snd s') (snd s).
  Proof.
    inversion 1; subst; simpl; clear H; (induction pre; simpl; [apply ls_here; constructor|apply ls_there; auto]).
  Qed.
  Theorem schedules_end s : Acc (fun s' s => step s s') s.
  Proof.
    destruct s as [m ps]. revert m. induction (lsub_acc ps) as [ps _ IH]. intros m. constructor. intros [m' ps'] H.
    apply IH. now apply step_lsub in H.
  Qed.

  (** the order of separate tasks does not matter *)
  Lemma FOP_perm fs gs : Permutation fs gs -> ForallOrdPairs apart fs -> ForallOrdPairs apart gs.
  Proof.
    induction 1; intros H1; auto.
    - inversion H1; subst. constructor; auto. now rewrite <- H.
    - inversion H1; subst. inversion H3; subst. inversion H2; subst. constructor; [constructor; auto using apart_sym|constructor; auto].
  Qed.
  Lemma run_all_perm ps qs : Permutation ps qs -> forall fs m, pool_ok fs ps -> meq (run_all ps m) (run_all qs m).
  Proof.
    induction 1; intros fs m [H1 H2]; simpl.
    - apply meq_refl.
    - inversion H1; subst. inversion H2; subst. apply (IHPermutation l0). split; auto.
    - inversion H1 as [|f1 ? fs1 ? Hf1 F1]; subst. inversion F1 as [|f2 ? fs2 ? Hf2 F2]; subst.
      inversion H2 as [|? ? A1 A2]; subst. inversion A1; subst. apply run_all_meq. apply (run_comm f2 f1); auto using apart_sym.
    - assert (Hg : exists gs, pool_ok gs l').
      { assert (H1' : Forall2 (fun p f => fits f p) l fs) by (clear - H1; induction H1; auto).
        destruct (Permutation_Forall2 H H1') as (gs & Hp & Hf). exists gs.
        split. clear - Hf; induction Hf; auto. apply FOP_perm with fs; auto. }
      destruct Hg as [gs Hg]. eapply meq_trans; [apply (IHPermutation1 fs); split; auto|apply (IHPermutation2 gs); auto].
  Qed.
  Theorem exec_phases_deterministic fss pss m m' : Forall2 pool_ok fss pss -> exec_phases m pss m' -> meq m' (run_phases pss m).
  Proof.
    intros H HE. revert fss H. induction HE; intros fss HF; simpl. apply meq_refl.
    inversion HF; subst. eapply meq_trans; [eapply IHHE; eauto|]. apply run_phases_meq. eapply exec_deterministic; eauto.
  Qed.
End Shm.
Arguments prog : clear implicits.
Arguments Done {_ _}. Arguments Rd {_ _}. Arguments Wr {_ _}.
