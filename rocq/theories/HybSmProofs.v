(** Proofs about HybSmModel, part 1: one rank, and overlapping a stage with an exchange. *)
From Verif Require Import Base AGroup LinAlg LinTools GSModel EQCModel ReduceModel NetModel DccModel HybSmModel EQCProofs EQCProofs2 ReduceProofs EQCProps ReduceProps NetProofs DccProofs HybMatProofs.
Local Open Scope nat_scope.
Local Open Scope vec_scope.

(** *** the correction of a sequence of stages on one rank *)
Section Local.
  Context {B : Blk} (L : BlkLaws B).
  Local Notation X := (X B). Local Notation vec := (list X). Local Notation spmat := (@spmat B).
  Let LX := lawX B L.
  Variables (n : nat) (Mr : spmat) (ms : nat -> bool).
  Hypothesis WM : wf_mat n n Mr.
  Hypothesis HM : forall k l, k < n -> l < n -> ms k && ms l = false -> entry Mr k l = m0.
  Lemma mv_len v : length (matvec Mr v) = n. Proof. unfold matvec. rewrite map_length. apply WM. Qed.
  Lemma mv_ghost v k : k < n -> ms k = false -> ent (matvec Mr v) k = x0.
  Proof.
    intros Hk E. rewrite (matvec_entries L _ n n) by auto. rewrite (xsum_ext _ _ (fun _ => x0)). apply (xsum_zero L). intros l Hl. rewrite HM; auto. apply (act_m0 B L). now rewrite E.
  Qed.
  Lemma mv_dep v w : (forall k, k < n -> ms k = true -> ent v k = ent w k) -> matvec Mr v = matvec Mr w.
  Proof.
    intros H. apply (vec_ext n); auto using mv_len. intros k Hk. rewrite !(matvec_entries L _ n n) by auto. apply xsum_ext. intros l Hl. destruct (ms l) eqn:E. now rewrite H. rewrite HM; auto. now rewrite !(act_m0 B L). now rewrite E, andb_false_r.
  Qed.
  (** a stage: depends on and changes only the dofs in S *)
  Record stage_op (S : nat -> bool) (C : vec -> vec) : Prop := mkSt {
    so_len : forall v, length v = n -> length (C v) = n;
    so_dep : forall v w, length v = n -> length w = n -> (forall k, k < n -> S k = true -> ent v k = ent w k) -> C v = C w;
    so_sup : forall v k, length v = n -> k < n -> S k = false -> ent (C v) k = x0 }.
  Lemma stage_weak S S' C : (forall k, k < n -> S k = true -> S' k = true) -> stage_op S C -> stage_op S' C.
  Proof.
    intros H [A1 A2 A3]. constructor; auto. intros v k Hv Hk E. apply A3; auto. destruct (S k) eqn:ES; auto. rewrite H in E; auto.
  Qed.
  Fixpoint seq_corr (cs : list (vec -> vec)) : vec -> vec :=
    match cs with [] => fun _ => vzero n | c :: cs => fun v => c v +v seq_corr cs (v -v matvec Mr (c v)) end.
  Lemma seq_corr_len cs v : (forall c, In c cs -> stage_op ms c) -> length v = n -> length (seq_corr cs v) = n.
  Proof.
    revert v. induction cs as [|c cs IH]; intros v HC Hv; cbn [seq_corr]; auto with len. assert (H := so_len _ _ (HC c (or_introl eq_refl)) v Hv). pose proof (mv_len (c v)). assert (length (seq_corr cs (v -v matvec Mr (c v))) = n). { apply IH. intros; apply HC; now right. auto with len. } auto with len.
  Qed.
  Lemma seq_corr_sup cs v k : (forall c, In c cs -> stage_op ms c) -> length v = n -> k < n -> ms k = false -> ent (seq_corr cs v) k = x0.
  Proof.
    revert v. induction cs as [|c cs IH]; intros v HC Hv Hk E; cbn [seq_corr]. now rewrite ent_vzero. assert (H := so_len _ _ (HC c (or_introl eq_refl)) v Hv). pose proof (mv_len (c v)). assert (LS : length (v -v matvec Mr (c v)) = n) by auto with len. assert (length (seq_corr cs (v -v matvec Mr (c v))) = n). { apply seq_corr_len; auto. intros; apply HC; now right. }
    rewrite (ent_vadd L) by congruence. rewrite (so_sup _ _ (HC c (or_introl eq_refl))) by auto. rewrite IH by (auto; intros; apply HC; now right). ag LX.
  Qed.
  Lemma seq_corr_app cs ds v : (forall c, In c cs -> stage_op ms c) -> (forall c, In c ds -> stage_op ms c) -> length v = n ->
    seq_corr (cs ++ ds) v = seq_corr cs v +v seq_corr ds (v -v matvec Mr (seq_corr cs v)).
  Proof.
    revert v. induction cs as [|c cs IH]; intros v HC HD Hv; cbn [seq_corr app].
    - rewrite (lin_zero L n n) by now apply (matvec_lin L). rewrite (vsub_zero L n) by auto. rewrite (vzero_add L n); auto. now apply seq_corr_len.
    - assert (H := so_len _ _ (HC c (or_introl eq_refl)) v Hv). pose proof (mv_len (c v)) as LM. assert (LS : length (v -v matvec Mr (c v)) = n) by auto with len. assert (HC' : forall c, In c cs -> stage_op ms c) by (intros; apply HC; now right). set (w := v -v matvec Mr (c v)) in *. pose proof (seq_corr_len cs w HC' LS) as LQ.
      rewrite IH by auto. pose proof (mv_len (seq_corr cs w)) as LM2.
      assert (LS2 : length (w -v matvec Mr (seq_corr cs w)) = n) by auto with len. pose proof (seq_corr_len ds _ HD LS2) as LD.
      rewrite (vadd_assoc L n) by auto. f_equal. f_equal. rewrite (lin_add _ _ _ (matvec_lin L n n Mr WM)) by auto. unfold w. symmetry. apply (vsub_vadd L n); auto.
  Qed.
End Local.

(** *** the exchange primitives on arbitrary buffers *)
Section Prims.
  Context {B : Blk} (L : BlkLaws B).
  Local Notation X := (X B). Local Notation vec := (list X).
  Let LX := lawX B L.
  Variable dps : list (list (list nat)).
  Notation np := (nranks dps). Notation nd r := (ndof dps r).
  Definition inc_at (r : nat) (bufs : list vec) (k : nat) : X :=
    fold_right (fun p s => xadd (fold_right (fun q s => if fst q =? k then xadd (snd q) s else s) x0 (combine (m_ex dps r p) (nth p bufs []))) s) x0 (seq 0 np).
  Lemma ApplyM_inc r bufs v : length v = nd r -> length (ApplyM dps r v bufs) = nd r /\ forall k, ent (ApplyM dps r v bufs) k = xadd (ent v k) (inc_at r bufs k).
  Proof.
    unfold ApplyM, inc_at. revert v. induction (seq 0 np) as [|p ps IH]; intros v Hv; cbn [fold_left fold_right]. { split; auto. intros k. ag LX. }
    destruct (addall L (combine (m_ex dps r p) (nth p bufs [])) v) as (A1 & A2). { intros [a b] Hq. apply in_combine_l in Hq. cbn [fst]. apply in_m in Hq as (Hq & _). congruence. }
    destruct (IH _ (eq_trans A1 Hv)) as (I1 & I2). split; auto. intros k. rewrite I2, A2. ag LX.
  Qed.
  Lemma inc_zero r bufs k : is_master dps r k && negb (match dproc dps r k with [] => true | _ => false end) = false -> inc_at r bufs k = x0.
  Proof.
    intros H. unfold inc_at. induction (seq 0 np) as [|p ps IH]; cbn [fold_right]; auto. rewrite IH.
    assert (N : ~ In k (m_ex dps r p)). { intros I. apply in_m in I as (_ & I1 & I2). rewrite I1 in H. cbn in H. destruct (dproc dps r k); [destruct I2|discriminate]. }
    assert (E : forall ks (bs : vec), ~ In k ks -> fold_right (fun q s => if fst q =? k then xadd (snd q) s else s) x0 (combine ks bs) = x0).
    { induction ks as [|a ks IHk]; intros [|b bs] Hk; cbn [combine fold_right fst snd]; auto. destruct (Nat.eqb_spec a k). { subst. destruct Hk. now left. } apply IHk. intros I. apply Hk. now right. }
    rewrite E by auto. ag LX.
  Qed.
  (** ApplyG overwrites ghosts *)
  Definition over_at (r : nat) (bufs : list vec) (k : nat) : option X :=
    fold_left (fun o p => fold_left (fun o q => if fst q =? k then Some (snd q) else o) (combine (g_ex dps r p) (nth p bufs [])) o) (seq 0 np) None.
  Lemma ApplyG_over r bufs v : length v = nd r -> length (ApplyG dps r v bufs) = nd r /\ forall k, ent (ApplyG dps r v bufs) k = match over_at r bufs k with Some y => y | None => ent v k end.
  Proof.
    intros Hv. unfold ApplyG, over_at.
    assert (IN : forall l (u : vec), (forall q, In q l -> fst q < length u) -> length (fold_left (fun v q => upd v (fst q) (snd q)) l u) = length u /\
      forall k (o : option X), ent (fold_left (fun v q => upd v (fst q) (snd q)) l u) k = match fold_left (fun o q => if fst q =? k then Some (snd q) else o) l (Some (ent u k)) with Some y => y | None => x0 end).
    { induction l as [|q l IH]; intros u HL; cbn [fold_left]. { split; auto. } destruct (IH (upd u (fst q) (snd q))) as (I1 & I2). { intros q' Hq. rewrite upd_length. apply HL. now right. } rewrite upd_length in I1. split; auto. intros k o. rewrite I2 by exact o. rewrite ent_upd. assert (Hq : fst q < length u) by (apply HL; now left). apply Nat.ltb_lt in Hq. rewrite Hq. destruct (fst q =? k); reflexivity. }
    assert (SW : forall l (k : nat) (d : X) (o : option X), match fold_left (fun o q => if fst q =? k then Some (snd q) else o) l (Some (match o with Some y => y | None => d end)) with Some y => y | None => x0 end = match fold_left (fun o q => if fst q =? k then Some (snd q : X) else o) l o with Some y => y | None => d end).
    { induction l as [|q l IH]; intros k d o; cbn [fold_left]; auto. destruct (fst q =? k). apply (IH k d (Some (snd q))). apply IH. }
    assert (G : forall ps (u : vec) (o : nat -> option X), length u = nd r -> (forall k, ent u k = match o k with Some y => y | None => ent v k end) ->
      length (fold_left (fun v p => fold_left (fun v q => upd v (fst q) (snd q)) (combine (g_ex dps r p) (nth p bufs [])) v) ps u) = nd r /\
      forall k, ent (fold_left (fun v p => fold_left (fun v q => upd v (fst q) (snd q)) (combine (g_ex dps r p) (nth p bufs [])) v) ps u) k =
        match fold_left (fun o p => fold_left (fun o q => if fst q =? k then Some (snd q) else o) (combine (g_ex dps r p) (nth p bufs [])) o) ps (o k) with Some y => y | None => ent v k end).
    { induction ps as [|p ps IH]; intros u o Hu Ho; cbn [fold_left]. { split; auto. }
      destruct (IN (combine (g_ex dps r p) (nth p bufs [])) u) as (I1 & I2). { intros [a b] Hq. apply in_combine_l in Hq. cbn [fst]. unfold g_ex in Hq. apply filter_In in Hq as (Hq & _). apply in_seq in Hq. lia. }
      apply (IH _ (fun k => fold_left (fun o q => if fst q =? k then Some (snd q) else o) (combine (g_ex dps r p) (nth p bufs [])) (o k))). congruence. intros k. rewrite I2 by exact None. rewrite Ho. apply SW. }
    apply (G (seq 0 np) v (fun _ => None)); auto.
  Qed.
  Lemma over_master r bufs k : is_master dps r k = true -> over_at r bufs k = None.
  Proof.
    intros H. unfold over_at. assert (N : forall p, ~ In k (g_ex dps r p)). { intros p I. unfold g_ex in I. apply filter_In in I as (_ & I). rewrite H in I. discriminate. }
    induction (seq 0 np) as [|p ps IH]; cbn [fold_left]; auto.
    assert (E : forall ks (bs : vec) (o : option X), ~ In k ks -> fold_left (fun o q => if fst q =? k then Some (snd q) else o) (combine ks bs) o = o).
    { induction ks as [|a ks IHk]; intros [|b bs] o Hk; cbn [combine fold_left fst snd]; auto. destruct (Nat.eqb_spec a k). { subst. destruct Hk. now left. } apply IHk. intros I. apply Hk. now right. }
    now rewrite E.
  Qed.
End Prims.

(** *** running a stage besides an exchange *)
Section Commute.
  Context {B : Blk}.
  Local Notation X := (X B). Local Notation hvec := (hvec B).
  Variables (np : nat) (recvs : NetModel.kind -> nat -> nat -> bool) (ok : nat -> hvec -> Prop) (f : nat -> hvec -> hvec).
  Hypothesis OKF : forall r v, r < np -> ok r v -> ok r (f r v).
  Definition commutes (i : instr hvec X) : Prop :=
    match i with
    | IVec _ => False
    | IG g => forall r v b, r < np -> ok r v -> ok r (fst (g r v b)) /\ fst (g r (f r v) b) = f r (fst (g r v b)) /\ snd (g r (f r v) b) = snd (g r v b)
    | IM g => forall r v b, r < np -> ok r v -> ok r (fst (g r v b)) /\ fst (g r (f r v) b) = f r (fst (g r v b)) /\ snd (g r (f r v) b) = snd (g r v b)
    | _ => True
    end.
  Definition eqs (s t : @lst hvec X) : Prop := (forall r, lv s r = lv t r) /\ (forall r, lg s r = lg t r) /\ (forall r, lm s r = lm t r).
  Definition oks (s : @lst hvec X) : Prop := forall r, r < np -> ok r (lv s r).
  Lemma eqs_refl s : eqs s s. Proof. split; [|split]; auto. Qed.
  Lemma eqs_sym s t : eqs s t -> eqs t s. Proof. intros (A1 & A2 & A3). split; [|split]; auto. Qed.
  Lemma eqs_trans s t u : eqs s t -> eqs t u -> eqs s u.
  Proof. intros (A1 & A2 & A3) (B1 & B2 & B3). split; [|split]; intros r; congruence. Qed.
  Lemma inbox_ext (g h : nat -> list (msg X)) wants q old : (forall r, g r = h r) -> NetModel.inbox np g wants q old = NetModel.inbox np h wants q old.
  Proof. intros H. unfold NetModel.inbox. revert old. induction (seq 0 np) as [|a l IH]; intros old; cbn [fold_left]; auto. now rewrite H. Qed.
  Lemma lock1_eqs i s t : eqs s t -> eqs (lock1 np recvs i s) (lock1 np recvs i t).
  Proof.
    intros (A1 & A2 & A3). destruct i as [g|g|g|[|]|[|]|[|]]; cbn [lock1]; (split; [|split]); cbn [lv lg lm]; intros r; unfold onr; rewrite ?A1, ?A2, ?A3; auto; destruct (r <? np); auto; now apply inbox_ext.
  Qed.
  Lemma lockstep_eqs P s t : eqs s t -> eqs (lockstep np recvs P s) (lockstep np recvs P t).
  Proof. revert s t. induction P as [|i P IH]; intros s t H; auto. cbn [lockstep fold_left]. apply IH. now apply lock1_eqs. Qed.
  Lemma comm1 i D s : commutes i -> oks s -> eqs (lock1 np recvs i (lock1 np recvs (slot f D) s)) (lock1 np recvs (slot f D) (lock1 np recvs i s)).
  Proof.
    intros HC HO. destruct i as [g|g|g|[|]|[|]|[|]]; cbn [commutes] in HC; [destruct HC|..]; try (apply eqs_refl).
    - cbn [lock1 slot]. split; [|split]; cbn [lv lg lm]; intros r; unfold onr; destruct (Nat.ltb_spec r np) as [Hr|Hr]; auto; destruct (HC r (lv s r) (lg s r) Hr (HO r Hr)) as (_ & C1 & C2); destruct (D r); auto.
    - cbn [lock1 slot]. split; [|split]; cbn [lv lg lm]; intros r; unfold onr; destruct (Nat.ltb_spec r np) as [Hr|Hr]; auto; destruct (HC r (lv s r) (lm s r) Hr (HO r Hr)) as (_ & C1 & C2); destruct (D r); auto.
  Qed.
  Lemma oks_lock1 i s : commutes i -> oks s -> oks (lock1 np recvs i s).
  Proof.
    intros HC HO r Hr. destruct i as [g|g|g|[|]|[|]|[|]]; cbn [commutes] in HC; [destruct HC|..]; cbn [lock1 lv]; auto; unfold onr; (destruct (Nat.ltb_spec r np); [|lia]); now apply HC; auto.
  Qed.
  Lemma oks_slot D s : oks s -> oks (lock1 np recvs (slot f D) s).
  Proof. intros HO r Hr. cbn [lock1 slot lv]. unfold onr. destruct (Nat.ltb_spec r np); [|lia]. destruct (D r); auto. Qed.
  Lemma comms P D s : Forall commutes P -> oks s -> eqs (lockstep np recvs P (lock1 np recvs (slot f D) s)) (lock1 np recvs (slot f D) (lockstep np recvs P s)).
  Proof.
    revert s. induction P as [|i P IH]; intros s HF HO. apply eqs_refl. inversion HF as [|? ? F1 F2]; subst. cbn [lockstep fold_left]. eapply eqs_trans. { apply lockstep_eqs. now apply comm1. } apply IH; auto. now apply oks_lock1.
  Qed.
  Lemma beside_eqs P p : forall d s, Forall commutes P -> oks s -> eqs (lockstep np recvs (beside f p d P) s) (lock1 np recvs (slot f (fun r => d <=? p r)) (lockstep np recvs P s)).
  Proof.
    induction P as [|i P IH]; intros d s HF HO; cbn [beside lockstep fold_left]. apply eqs_refl. inversion HF as [|? ? F1 F2]; subst.
    eapply eqs_trans. { apply (lockstep_eqs (beside f p (S d) P)). now apply comm1. }
    eapply eqs_trans. { apply IH; auto. apply oks_slot. now apply oks_lock1. }
    eapply eqs_trans. { apply lock1_eqs. apply comms; auto. now apply oks_lock1. }
    set (t := lockstep np recvs P (lock1 np recvs i s)). change (fold_left _ P _) with t. split; [|split]; cbn [lock1 slot lv lg lm]; auto. intros r. unfold onr. destruct (r <? np); auto.
    destruct (Nat.eqb_spec (p r) d), (Nat.leb_spec (S d) (p r)), (Nat.leb_spec d (p r)); auto; lia.
  Qed.
  Lemma slot_all D s : (forall r, D r = true) -> lock1 np recvs (slot f D) s = mkLst (lv (lock1 np recvs (slot f D) s)) (lg s) (lm s) /\ eqs (lock1 np recvs (slot f D) s) (lock1 np recvs (IVec f) s).
  Proof. intros H. split; auto. split; [|split]; cbn [lock1 slot lv lg lm]; auto. intros r. unfold onr. destruct (r <? np); auto. now rewrite H. Qed.
  (** whatever the place of f: as if it had run after, or before, all of P *)
  Lemma after P1' P2' s : Forall commutes P1' -> Forall commutes P2' -> oks s -> eqs (lockstep np recvs (P1' ++ [IVec f] ++ P2') s) (lock1 np recvs (IVec f) (lockstep np recvs (P1' ++ P2') s)).
  Proof.
    intros F1 F2 HO. unfold lockstep. rewrite !fold_left_app. cbn [fold_left app]. fold (lockstep np recvs P1' s). set (t := lockstep np recvs P1' s).
    assert (HT : oks t). { unfold t, lockstep. clear t. revert s HO. induction P1' as [|i P IH]; intros s HO; cbn [fold_left]; auto. inversion F1; subst. apply IH; auto. now apply oks_lock1. }
    pose proof (comms P2' (fun _ => true) t F2 HT) as Y. exact Y.
  Qed.
  Lemma beside_after P p s : Forall commutes P -> oks s -> eqs (lockstep np recvs (beside f p 0 P) s) (lock1 np recvs (IVec f) (lockstep np recvs P s)).
  Proof. intros F HO. eapply eqs_trans. apply beside_eqs; auto. apply slot_all. reflexivity. Qed.
  Lemma oks_lockstep P s : Forall commutes P -> oks s -> oks (lockstep np recvs P s).
  Proof. revert s. induction P as [|i P IH]; intros s HF HO; auto. inversion HF; subst. cbn [lockstep fold_left]. apply IH; auto. now apply oks_lock1. Qed.
End Commute.
