(** SimpleLoopsFromChunks *)
From Verif Require Import Base ArraysModel LoopModel LoopSpec LoopProofs2 LoopProofs3.
Import ListNotations.

Definition rest (data : list (list edge4)) : list edge4 := filter open_entry (concat data).
Definition restr (row : list edge4) : list edge4 := filter open_entry row.
Lemma rest_cons r data : rest (r :: data) = restr r ++ rest data.
Proof. unfold rest, restr. cbn. apply filter_app. Qed.
Lemma mark_not_open e : open_entry e = true -> open_entry (mark e) = false.
Proof. unfold open_entry, mark. cbn. rewrite Z.ltb_lt, Z.ltb_ge. lia. Qed.
Lemma mark_mark e : mark (mark e) = e.
Proof. destruct e as [[a b] c]. unfold mark. cbn. now rewrite Z.opp_involutive. Qed.

(** an entry is what it was or what it was with the mark *)
Definition st1 (o e : edge4) : Prop := e = o \/ e = mark o.
Definition stR (o e : list edge4) := Forall2 st1 o e.
Definition stD (o e : list (list edge4)) := Forall2 stR o e.
Lemma st1_mark o e : st1 o e -> st1 o (mark e).
Proof. intros [->| ->]; [right; auto|left; apply mark_mark]. Qed.

Lemma find_start_row_ok orow : forall row, stR orow row ->
  match find_start_row row with
  | Some (e, r) => Permutation (restr row) (e :: restr r) /\ stR orow r
  | None => restr row = []
  end.
Proof.
  intros row H. induction H as [|o e orow row H1 H2 IH]; cbn [find_start_row]; auto.
  destruct (open_entry e) eqn:E.
  - split; [|constructor; auto; now apply st1_mark]. unfold restr. cbn [filter]. rewrite E, (mark_not_open _ E). reflexivity.
  - destruct (find_start_row row) as [[x r]|].
    + destruct IH as [P F]. split; [|constructor; auto]. unfold restr in *. cbn [filter]. rewrite E. exact P.
    + unfold restr. cbn [filter]. rewrite E. exact IH.
Qed.
Lemma find_start_ok od : forall data, stD od data ->
  match find_start data with
  | Some (e, d) => Permutation (rest data) (e :: rest d) /\ stD od d
  | None => rest data = []
  end.
Proof.
  intros data H. induction H as [|o r od data H1 H2 IH]; cbn [find_start]; auto.
  pose proof (find_start_row_ok o r H1) as R. destruct (find_start_row r) as [[x r']|].
  - destruct R as [P F]. rewrite !rest_cons, P. split; [reflexivity|constructor; auto].
  - destruct (find_start data) as [[x d]|].
    + destruct IH as [P F]. rewrite !rest_cons, R, P. split; [reflexivity|constructor; auto].
    + rewrite rest_cons, R, IH. reflexivity.
Qed.

Lemma steps_snoc (sub : list pt) y d : sub <> [] -> steps (sub ++ [y]) = steps sub ++ [(last sub d, y)].
Proof. intros H. rewrite (snoc_last sub d H) at 1. rewrite steps_glue. rewrite <- (snoc_last sub d H). reflexivity. Qed.

Definition vres (sub sub' : list pt) (r r' : list edge4) (n : nat) : Prop :=
  sub' <> [] /\ Permutation (steps sub ++ r) (steps sub' ++ r') /\ length r = (n + length r')%nat /\
  (n = 0%nat -> sub' = sub /\ r' = r /\ forall e, In e r -> fst e <> last sub d0 /\ snd e <> hd d0 sub).

Lemma vres_trans sub sub1 sub2 r r1 s s1 n m : vres sub sub1 r r1 n -> vres sub1 sub2 s s1 m -> vres sub sub2 (r ++ s) (r1 ++ s1) (n + m).
Proof.
  intros (A1 & A2 & A3 & A4) (B1 & B2 & B3 & B4). split; auto. split; [|split].
  - rewrite app_assoc, A2, <- app_assoc. rewrite (Permutation_app_comm r1 s), app_assoc, B2, <- app_assoc. apply Permutation_app_head, Permutation_app_comm.
  - rewrite !app_length. lia.
  - intros E. destruct A4 as (-> & -> & F); [lia|]. destruct B4 as (-> & -> & G); [lia|]. split; auto. split; auto.
    intros e He. apply in_app_or in He. destruct He; auto.
Qed.

Lemma visit_ok sub e : sub <> [] -> exists sub' e' n, visit sub e = Ret (sub', e', n) /\ (e' = e \/ (e' = mark e)) /\ vres sub sub' (restr [e]) (restr [e']) n.
Proof.
  intros H. unfold visit. destruct (open_entry e) eqn:E.
  - destruct sub as [|s sub0] eqn:Es; [congruence|]. rewrite <- Es in *.
    assert (El : last sub s = last sub d0) by (apply last_indep; auto). rewrite El.
    assert (Hs : s = hd d0 sub) by (rewrite Es; reflexivity).
    destruct (pteqb (fst e) (last sub d0)) eqn:E1; [|destruct (pteqb (snd e) s) eqn:E2].
    + apply pteqb_ok in E1. exists (sub ++ [snd e]), (mark e), 1%nat. split; auto. split; auto. unfold vres, restr. cbn [filter]. rewrite E, (mark_not_open e E). cbn [length].
      split; [destruct sub; discriminate|]. split; [|split; [auto|discriminate]].
      rewrite app_nil_r, (steps_snoc _ _ d0) by auto. rewrite <- E1. destruct e; reflexivity.
    + apply pteqb_ok in E2. exists (fst e :: sub), (mark e), 1%nat. split; auto. split; auto. unfold vres, restr. cbn [filter]. rewrite E, (mark_not_open e E). cbn [length].
      split; [discriminate|]. split; [|split; [auto|discriminate]].
      rewrite app_nil_r. rewrite Es, steps_cons2. rewrite <- Es, <- E2. destruct e; cbn. rewrite Permutation_app_comm. reflexivity.
    + apply pteqb_no in E1, E2. exists sub, e, 0%nat. split; auto. split; auto. unfold vres, restr. cbn [filter]. rewrite E. split; auto. split; auto. split; auto.
      intros _. split; auto. split; auto. intros e' [<-|[]]. split; congruence.
  - exists sub, e, 0%nat. split; auto. split; auto. unfold vres, restr. cbn [filter]. rewrite E. split; [exact H|]. split; [reflexivity|]. split; [reflexivity|]. intros _. split; [reflexivity|]. split; [reflexivity|]. intros ? [].
Qed.
Lemma restr_cons e r : restr (e :: r) = restr [e] ++ restr r.
Proof. unfold restr. cbn [filter]. destruct (open_entry e); reflexivity. Qed.
Lemma visit_row_ok o : forall row, stR o row -> forall sub, sub <> [] -> exists sub' row' n, visit_row sub row = Ret (sub', row', n) /\ stR o row' /\ vres sub sub' (restr row) (restr row') n.
Proof.
  intros row H. induction H as [|o1 e o row H1 H2 IH]; intros sub Hs.
  - exists sub, [], 0%nat. split; [reflexivity|]. split; [constructor|]. split; [exact Hs|]. split; [reflexivity|]. split; [reflexivity|]. intros _. split; [reflexivity|]. split; [reflexivity|]. intros ? [].
  - cbn [visit_row]. destruct (visit_ok sub e Hs) as (s1 & e1 & n1 & E1 & ME & V1). rewrite E1. cbn [bind].
    destruct (IH s1 (proj1 V1)) as (s2 & r2 & n2 & E2 & F2 & V2). rewrite E2. cbn [bind]. exists s2, (e1 :: r2), (n1 + n2)%nat. split; auto. split.
    + constructor; auto. destruct ME as [->| ->]; auto. now apply st1_mark.
    + rewrite (restr_cons e), (restr_cons e1). eapply vres_trans; eauto.
Qed.
Lemma visit_rows_ok o : forall data, stD o data -> forall sub, sub <> [] -> exists sub' data' n, visit_rows sub data = Ret (sub', data', n) /\ stD o data' /\ vres sub sub' (rest data) (rest data') n.
Proof.
  intros data H. induction H as [|o1 r o data H1 H2 IH]; intros sub Hs.
  - exists sub, [], 0%nat. split; [reflexivity|]. split; [constructor|]. split; [exact Hs|]. split; [reflexivity|]. split; [reflexivity|]. intros _. split; [reflexivity|]. split; [reflexivity|]. intros ? [].
  - cbn [visit_rows]. destruct (visit_row_ok o1 r H1 sub Hs) as (s1 & r1 & n1 & E1 & F1 & V1). rewrite E1. cbn [bind].
    destruct (IH s1 (proj1 V1)) as (s2 & d2 & n2 & E2 & F2 & V2). rewrite E2. cbn [bind]. exists s2, (r1 :: d2), (n1 + n2)%nat. split; auto. split; [constructor; auto|].
    rewrite !rest_cons. eapply vres_trans; eauto.
Qed.
(** nothing open: a pass over any data does nothing, whatever [sub] is *)
Lemma visit_rows_idle sub : forall data, rest data = [] -> visit_rows sub data = Ret (sub, data, 0%nat).
Proof.
  assert (R : forall row, restr row = [] -> visit_row sub row = Ret (sub, row, 0%nat)).
  { induction row as [|e row IH]; intros H; [reflexivity|]. unfold restr in H. cbn [filter] in H. destruct (open_entry e) eqn:E; [discriminate|].
    cbn [visit_row]. unfold visit. rewrite E. cbn [bind]. rewrite IH by auto. reflexivity. }
  induction data as [|r data IH]; intros H; [reflexivity|]. rewrite rest_cons in H. apply app_eq_nil in H. destruct H as [H1 H2].
  cbn [visit_rows]. rewrite R by auto. cbn [bind]. rewrite IH by auto. reflexivity.
Qed.

(** degrees *)
Definition outd (es : list edge4) (v : pt) : nat := length (filter (fun e => pteqb (fst e) v) es).
Definition ind (es : list edge4) (v : pt) : nat := length (filter (fun e => pteqb (snd e) v) es).
Lemma outd_app a b v : outd (a ++ b) v = (outd a v + outd b v)%nat. Proof. unfold outd. rewrite filter_app, app_length. auto. Qed.
Lemma ind_app a b v : ind (a ++ b) v = (ind a v + ind b v)%nat. Proof. unfold ind. rewrite filter_app, app_length. auto. Qed.
Lemma filter_perm {A} (p : A -> bool) l l' : Permutation l l' -> Permutation (filter p l) (filter p l').
Proof. intros H; induction H; cbn; auto. - destruct (p x); auto. - destruct (p x), (p y); auto. apply perm_swap. - etransitivity; eauto. Qed.
Lemma outd_perm a b v : Permutation a b -> outd a v = outd b v. Proof. intros H. unfold outd. apply Permutation_length, filter_perm, H. Qed.
Lemma ind_perm a b v : Permutation a b -> ind a v = ind b v. Proof. intros H. unfold ind. apply Permutation_length, filter_perm, H. Qed.
Lemma deg_steps v : forall l, l <> [] -> (outd (steps l) v + (if pteqb (last l d0) v then 1 else 0) = ind (steps l) v + (if pteqb (hd d0 l) v then 1 else 0))%nat.
Proof.
  induction l as [|a l IH]; intros H; [congruence|]. destruct l as [|b l]; [reflexivity|]. rewrite steps_cons2. specialize (IH ltac:(discriminate)).
  change (last (a :: b :: l) d0) with (last (b :: l) d0). cbn [hd] in *.
  unfold outd, ind in *. cbn [filter fst snd]. destruct (pteqb a v), (pteqb b v), (pteqb (last (b :: l) d0) v); cbn [length] in *; lia.
Qed.
Lemma balanced_deg es : balanced pteqb es <-> forall v, outd es v = ind es v. Proof. reflexivity. Qed.
Lemma balanced_closed l : closedc l -> balanced pteqb (steps l).
Proof. intros [H1 H2] v. pose proof (deg_steps v l H1) as D. rewrite H2 in D. unfold outd, ind in D. lia. Qed.
Lemma outd_zero es v : (forall e, In e es -> fst e <> v) -> outd es v = 0%nat.
Proof. intros H. unfold outd. assert (E : filter (fun e => pteqb (fst e) v) es = []). { induction es as [|e es IH]; auto. cbn. assert (X : pteqb (fst e) v = false) by (apply pteqb_no, H; cbn; auto). rewrite X. apply IH. intros; apply H; cbn; auto. } now rewrite E. Qed.

Section S.
  Variable sorti : list pt -> list nat.
  Hypothesis HS : sorti_ok sorti.
  Variable orig : list (list edge4).
  Hypothesis Hopen : forall e, In e (concat orig) -> (0 < fst (fst e))%Z.
  Hypothesis Hbal : balanced pteqb (concat orig).
  Let tot := length (concat orig).

  Definition sinv (data : list (list edge4)) (sub : list pt) (ndone : nat) (out : list (list pt)) (fin : list edge4) : Prop :=
    stD orig data /\ Permutation (fin ++ steps sub ++ rest data) (concat orig) /\ (ndone + length (rest data) = tot)%nat /\
    Forall simple_cycle out /\ Permutation (concat (map steps out)) (proper pteqb fin) /\ balanced pteqb fin.

  Lemma closed_of data sub ndone out fin : sinv data sub ndone out fin -> sub <> [] -> (forall e, In e (rest data) -> fst e <> last sub d0) -> closedc sub.
  Proof.
    intros (_ & P & _ & _ & _ & B) Hs HR. split; auto. destruct (pteqb (hd d0 sub) (last sub d0)) eqn:E; [now apply pteqb_ok|]. exfalso.
    set (z := last sub d0) in *. pose proof (deg_steps z sub Hs) as D. fold z in D. rewrite E, pteqb_refl in D.
    pose proof (Hbal z) as T. change (outd (concat orig) z = ind (concat orig) z) in T.
    rewrite <- (outd_perm _ _ z P), <- (ind_perm _ _ z P), !outd_app, !ind_app, (outd_zero (rest data) z HR) in T.
    pose proof (B z) as Bz. change (outd fin z = ind fin z) in Bz. lia.
  Qed.

  Lemma split_step data sub ndone out fin : sinv data sub ndone out fin -> sub <> [] -> (forall e, In e (rest data) -> fst e <> last sub d0) ->
    exists out', SplitChunk sorti sub out = Ret out' /\ sinv data [] ndone out' (fin ++ steps sub).
  Proof.
    intros I Hs HR. pose proof (closed_of _ _ _ _ _ I Hs HR) as C. destruct I as (F & P & N & S1 & S2 & B).
    destruct (SplitChunk_ok sorti HS sub out Hs) as (new & E & R). apply (result_closed _ _ C) in R. destruct R as [R1 R2].
    exists (out ++ new). split; auto. split; auto. split; [rewrite <- app_assoc; exact P|]. split; auto. split; [apply Forall_app; auto|]. split.
    - rewrite map_app, concat_app. etransitivity; [apply Permutation_app; [exact S2|exact R2]|]. apply Permutation_refl'. symmetry. exact (proper_app pteqb fin (steps sub)).
    - intros v. change (outd (fin ++ steps sub) v = ind (fin ++ steps sub) v). rewrite outd_app, ind_app. pose proof (B v). pose proof (balanced_closed _ C v). unfold outd, ind in *. lia.
  Qed.

  Lemma sl_ok : forall fuel data sub ndone out fin, sinv data sub ndone out fin -> (2 * length (rest data) + (match sub with [] => 0 | _ => 1 end) < fuel)%nat ->
    exists data' sub' out' fin', sl_loop sorti fuel tot data sub ndone out = Ret (data', sub', out') /\ sinv data' sub' tot out' fin'.
  Proof.
    induction fuel as [|fuel IH]; intros data sub ndone out fin I Hf; [lia|]. cbn [sl_loop].
    destruct (Nat.ltb_spec ndone tot) as [Hlt|Hge].
    2:{ exists data, sub, out, fin. split; auto. destruct I as (F & P & N & R). replace tot with ndone by lia. split; auto. }
    (* the state after a possible new start *)
    assert (ST : exists data1 sub1 nd1, (match sub with _ :: _ => (data, sub, ndone) | [] => match find_start data with None => (data, [], ndone) | Some (e, d) => (d, [fst e; snd e], S ndone) end end) = (data1, sub1, nd1)
       /\ sub1 <> [] /\ sinv data1 sub1 nd1 out fin /\ (2 * length (rest data1) < 2 * length (rest data) + (match sub with [] => 0 | _ => 1 end))%nat).
    { destruct sub as [|s sub0].
      - destruct I as (F & P & N & S1 & S2 & B). pose proof (find_start_ok orig data F) as FS. destruct (find_start data) as [[e d]|].
        + destruct FS as [Pe Fd]. exists d, [fst e; snd e], (S ndone). split; auto. split; [discriminate|]. pose proof (Permutation_length Pe) as L. cbn in L. split; [|lia].
          split; auto. split; [|split; [lia|auto]]. rewrite <- P. apply Permutation_app_head. cbn. rewrite Pe. destruct e; reflexivity.
        + rewrite FS in N. cbn in N. lia.
      - exists data, (s :: sub0), ndone. split; auto. split; [discriminate|]. split; auto. lia. }
    destruct ST as (data1 & sub1 & nd1 & -> & Hs & I1 & M1).
    destruct (Nat.eqb_spec nd1 tot) as [En|En].
    { subst nd1. exists data1, sub1, out, fin. split; auto. }
    destruct (visit_rows_ok orig data1 (proj1 I1) sub1 Hs) as (sub2 & data2 & n & EV & F2 & V). rewrite EV. cbn [bind].
    destruct V as (V1 & V2 & V3 & V4). destruct I1 as (F1 & P1 & N1 & S1 & S2 & B1).
    destruct (Nat.eqb_spec n 0) as [E0|E0].
    - destruct (V4 E0) as (-> & Er & NF).
      assert (I2 : sinv data2 sub1 nd1 out fin) by (split; auto; split; [rewrite Er; auto|split; [rewrite Er; auto|auto]]).
      destruct (split_step _ _ _ _ _ I2 Hs) as (out' & -> & I3); [rewrite Er; intros e He; apply NF; auto|]. cbn [bind].
      apply (IH _ _ _ _ _ I3). rewrite Er. lia.
    - apply (IH data2 sub2 (nd1 + n)%nat out fin); [|destruct sub2; [congruence|lia]].
      split; auto. split; [rewrite <- P1; apply Permutation_app_head; symmetry; exact V2|]. split; [lia|auto].
  Qed.

  Lemma open_all : rest orig = concat orig.
  Proof. unfold rest. clear -Hopen. induction (concat orig) as [|e l IH]; cbn; auto. assert (E : open_entry e = true) by (apply Z.ltb_lt, Hopen; cbn; auto). rewrite E, IH; auto. intros; apply Hopen; cbn; auto. Qed.
  Lemma stD_refl : forall l, stD l l.
  Proof. induction l as [|r l IH]; constructor; auto. clear. induction r; constructor; auto. left; auto. Qed.

  Lemma restore : forall data, stD orig data -> rest data = [] -> map (map mark) data = orig.
  Proof.
    clear Hbal tot. intros data H. induction H as [|o r od data H1 H2 IH]; intros R; [reflexivity|]. rewrite rest_cons in R. apply app_eq_nil in R. destruct R as [R1 R2]. cbn [map]. f_equal.
    - assert (HO : forall e, In e o -> (0 < fst (fst e))%Z) by (intros e He; apply Hopen; cbn; apply in_or_app; auto).
      clear -H1 R1 HO. induction H1 as [|x y o r X H IH]; auto. unfold restr in R1. cbn [filter] in R1. destruct (open_entry y) eqn:E; [discriminate|]. cbn [map]. f_equal; [|apply IH; auto; intros; apply HO; cbn; auto].
      destruct X as [->| ->]; [|apply mark_mark]. specialize (HO x ltac:(cbn; auto)). apply Z.ltb_lt in HO. unfold open_entry in E. congruence.
    - apply IH; auto. intros e He. apply Hopen. cbn. apply in_or_app; auto.
  Qed.

  Lemma simple_loops_ok fuel : (2 * tot < fuel)%nat -> exists out, SimpleLoopsFromChunks sorti fuel orig = Ret (orig, out) /\
    Forall simple_cycle out /\ Permutation (concat (map steps out)) (proper pteqb (concat orig)).
  Proof.
    intros Hf. unfold SimpleLoopsFromChunks. fold tot.
    assert (I0 : sinv orig [] 0 [] []).
    { split; [apply stD_refl|]. split; [cbn; rewrite open_all; reflexivity|]. split; [rewrite open_all; reflexivity|]. split; [constructor|]. split; [reflexivity|]. intros v; reflexivity. }
    destruct (sl_ok fuel _ _ _ _ _ I0) as (data & sub & out & fin & -> & I); [rewrite open_all; fold tot; lia|]. cbn [bind].
    assert (R0 : rest data = []) by (destruct I as (_ & _ & N & _); destruct (rest data); auto; cbn in N; lia).
    assert (FIN : forall o f, sinv data [] tot o f -> Forall simple_cycle o /\ Permutation (concat (map steps o)) (proper pteqb (concat orig))).
    { intros o f (_ & P & _ & S1 & S2 & _). split; auto. rewrite R0 in P. cbn in P. rewrite app_nil_r in P. rewrite S2. now apply proper_perm. }
    destruct sub as [|s sub0].
    - exists out. cbn [bind]. rewrite restore by (auto; apply I). split; auto. eapply FIN; eauto.
    - destruct (split_step _ _ _ _ _ I ltac:(discriminate)) as (out' & E & I'); [rewrite R0; intros ? []|]. rewrite E. cbn [bind].
      exists out'. rewrite restore by (auto; apply I). split; auto. eapply FIN; eauto.
  Qed.
End S.

(** an entry with an id that is not positive is never done: the loop does not end *)
Lemma split_some sorti (HS : sorti_ok sorti) sub out : exists o, SplitChunk sorti sub out = Ret o.
Proof.
  destruct sub as [|s sub].
  - exists out. reflexivity.
  - destruct (SplitChunk_ok sorti HS (s :: sub) out ltac:(discriminate)) as (new & E & _). eauto.
Qed.
Lemma sl_never sorti (HS : sorti_ok sorti) tot : forall fuel data sub ndone out, (ndone + length (rest data) < tot)%nat -> sl_loop sorti fuel tot data sub ndone out = Err OutOfFuel.
Proof.
  induction fuel as [|fuel IH]; intros data sub ndone out H; [reflexivity|]. cbn [sl_loop].
  destruct (Nat.ltb_spec ndone tot); [|lia].
  assert (ST : exists data1 sub1 nd1, (match sub with _ :: _ => (data, sub, ndone) | [] => match find_start data with None => (data, [], ndone) | Some (e, d) => (d, [fst e; snd e], S ndone) end end) = (data1, sub1, nd1)
       /\ (nd1 + length (rest data1) < tot)%nat /\ (sub1 = [] -> rest data1 = [])).
  { destruct sub as [|s sub0].
    - pose proof (find_start_ok data data (stD_refl data)) as FS. destruct (find_start data) as [[e d]|].
      + destruct FS as [Pe _]. apply Permutation_length in Pe. cbn in Pe. exists d, [fst e; snd e], (S ndone). split; auto. split; [lia|discriminate].
      + exists data, [], ndone. auto.
    - exists data, (s :: sub0), ndone. split; auto. split; auto. discriminate. }
  destruct ST as (data1 & sub1 & nd1 & -> & L1 & Z1). destruct (Nat.eqb_spec nd1 tot); [lia|].
  assert (VR : exists sub2 data2 n, visit_rows sub1 data1 = Ret (sub2, data2, n) /\ (nd1 + n + length (rest data2) < tot)%nat).
  { destruct sub1 as [|s sub0].
    - rewrite visit_rows_idle by auto. exists [], data1, 0%nat. split; auto. lia.
    - destruct (visit_rows_ok data1 data1 (stD_refl data1) (s :: sub0) ltac:(discriminate)) as (s2 & d2 & n2 & E & _ & V). exists s2, d2, n2. split; auto. destruct V as (_ & _ & V & _). lia. }
  destruct VR as (sub2 & data2 & n2 & -> & L2). cbn [bind]. destruct (Nat.eqb_spec n2 0).
  - destruct (split_some sorti HS sub2 out) as (o & ->). cbn [bind]. apply IH. lia.
  - apply IH. lia.
Qed.
