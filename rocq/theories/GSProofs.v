From Verif Require Import Base AGroup LinAlg LinTools GSSpec GSModel.
From Coq Require Import Ring Ring_theory.

(** *** lists *)
Lemma filter_rev' {A} (p : A -> bool) l : filter p (rev l) = rev (filter p l).
Proof.
  induction l; simpl; auto. rewrite filter_app, IHl. simpl. destruct (p a); simpl; auto. now rewrite app_nil_r.
Qed.
Lemma filter_none {A} (p : A -> bool) l : (forall x, In x l -> p x = false) -> filter p l = [].
Proof. induction l; simpl; intros H; auto. rewrite H by auto. apply IHl; auto. Qed.
Lemma filter_all {A} (p : A -> bool) l : (forall x, In x l -> p x = true) -> filter p l = l.
Proof. induction l; simpl; intros H; auto. rewrite H by auto. f_equal. apply IHl; auto. Qed.
Lemma fold_left_filter {A S} (p : A -> bool) (f : S -> A -> S) l s :
  fold_left (fun s k => if p k then f s k else s) l s = fold_left f (filter p l) s.
Proof. revert s; induction l; intros s; simpl; auto. destruct (p a); simpl; auto. Qed.
Lemma fold_left_map' {A C S} (g : A -> C) (f : S -> C -> S) l s :
  fold_left f (map g l) s = fold_left (fun s a => f s (g a)) l s.
Proof. revert s; induction l; intros s; simpl; auto. Qed.
Lemma fold_left_ext_in {A S} (f g : S -> A -> S) l s :
  (forall s a, In a l -> f s a = g s a) -> fold_left f l s = fold_left g l s.
Proof. revert s; induction l; intros s H; simpl; auto. rewrite H by (now left). apply IHl; intros; apply H; now right. Qed.
Lemma down_list un uf : uf < un -> map (fun t => un - 1 - t) (seq 0 (un - 1 - uf)) ++ [uf] = rev (seq uf (un - uf)).
Proof.
  intros H. remember (un - 1 - uf) as m eqn:E. replace (un - uf) with (S m) by lia.
  replace un with (S (uf + m)) by lia. clear E H un.
  induction m.
  - reflexivity.
  - rewrite (seq_S (S m) uf), rev_app_distr, <- IHm. simpl rev. cbn [seq map app].
    f_equal; [lia|]. rewrite <- seq_shift, map_map. f_equal. apply map_ext; intros; lia.
Qed.
Lemma down_list0 n : map (fun t => n - 1 - t) (seq 0 n) = rev (seq 0 n).
Proof.
  induction n; auto. rewrite (seq_S n 0) at 2. rewrite rev_app_distr, <- IHn. simpl rev. cbn [seq map app].
  f_equal; try lia. rewrite <- seq_shift, map_map. apply map_ext; intros; lia.
Qed.
Lemma filter_seq_sub (p : nat -> bool) a b c d :
  a <= c -> d <= b -> (forall k, p k = true -> a <= k < b -> c <= k < d) ->
  filter p (seq a (b - a)) = filter p (if c <? d then seq c (d - c) else []).
Proof.
  intros Hac Hdb H. destruct (Nat.ltb_spec c d).
  - replace (b - a) with ((c - a) + ((d - c) + (b - d))) by lia. rewrite !seq_app, !filter_app.
    rewrite (filter_none p (seq a (c - a))), (filter_none p (seq (a + (c - a) + (d - c)) (b - d))).
    + rewrite app_nil_r. simpl. do 2 f_equal. lia.
    + intros x Hx. apply in_seq in Hx. destruct (p x) eqn:E; auto. apply H in E; lia.
    + intros x Hx. apply in_seq in Hx. destruct (p x) eqn:E; auto. apply H in E; lia.
  - simpl. apply filter_none. intros x Hx. apply in_seq in Hx. destruct (p x) eqn:E; auto. apply H in E; lia.
Qed.

(** *** first / last set bit *)
Lemma num_set_0 f : num_set f = 0 -> forall k, nth k f false = false.
Proof.
  unfold num_set. induction f as [|b f IH]; intros H [|k]; simpl in *; auto; destruct b; simpl in *; try lia; auto.
Qed.
Lemma first_set_spec f c : match first_set f c with
  | Some i => c <= i /\ nth (i - c) f false = true /\ forall k, k < i - c -> nth k f false = false
  | None => forall k, nth k f false = false end.
Proof.
  revert c; induction f as [|b f IH]; intros c; simpl. intros [|k]; auto.
  destruct b.
  - rewrite Nat.sub_diag. repeat split; auto. intros; lia.
  - specialize (IH (S c)). destruct (first_set f (S c)).
    + destruct IH as (H1 & H2 & H3). replace (n - c) with (S (n - S c)) by lia. repeat split; auto; [lia|].
      intros [|k] Hk; auto. apply H3. lia.
    + intros [|k]; auto.
Qed.
Lemma last_set_spec f c : match last_set_next f c with
  | Some i => i <= c /\ forall k, k < c -> nth k f false = true -> k < i
  | None => forall k, k < c -> nth k f false = false end.
Proof.
  induction c; simpl. intros; lia.
  destruct (nth c f false) eqn:E. split; auto.
  destruct (last_set_next f c).
  - destruct IHc. split; [lia|]. intros k Hk Ht. apply H0; auto. assert (k <> c) by congruence. lia.
  - intros k Hk. destruct (Nat.eq_dec k c); subst; auto. apply IHc; lia.
Qed.

(** free rows lie in [first_free, next_free) *)
Lemma gss3_range_free n fds : (forall f, fds = Some f -> length f = n) ->
  forall k, k < n -> is_free fds k = true -> fst (gss3_range n fds) <= k < snd (gss3_range n fds).
Proof.
  intros HL k Hk Hf. destruct fds as [f|]; simpl in *; [|lia]. specialize (HL f eq_refl).
  destruct (num_set f =? 0) eqn:E1.
  - apply Nat.eqb_eq in E1. rewrite (num_set_0 f E1 k) in Hf. discriminate.
  - destruct (num_set f =? length f); simpl; [lia|].
    pose proof (first_set_spec f 0) as F. pose proof (last_set_spec f (length f)) as G.
    split.
    + destruct (first_set f 0) as [i|]; [|lia]. destruct F as (_ & _ & F).
      destruct (Nat.lt_ge_cases k i); auto. rewrite F in Hf by lia. discriminate.
    + destruct (last_set_next f (length f)) as [i|]; [|lia]. apply G; auto. lia.
Qed.
Lemma gss3_range_bound n fds : (forall f, fds = Some f -> length f = n) -> snd (gss3_range n fds) <= n.
Proof.
  intros HL. destruct fds as [f|]; simpl in *; [|lia]. specialize (HL f eq_refl).
  destruct (num_set f =? 0); simpl; [lia|]. destruct (num_set f =? length f); simpl; [lia|].
  pose proof (last_set_spec f (length f)) as G. destruct (last_set_next f (length f)); [|lia]. lia.
Qed.

Lemma le_eq2 {K} (le : K -> K -> Prop) p q p' q' : p = p' -> q = q' -> le p q -> le p' q'.
Proof. intros; now subst. Qed.

Section GS.
  Context {B : Blk} (L : BlkLaws B).
  Local Notation X := (X B). Local Notation M := (M B). Local Notation K := (K B).
  Local Notation vec := (list X).
  Local Notation lin := (@lin B). Local Notation adj := (@adj B).
  Add Ring Kring3 : (lawK B L).
  Let LX := lawX B L.

  (** one relaxation step as a correction operator *)
  Definition cstep (n k : nat) (d : M) (r : vec) : vec := vunit n k (act d (ent r k)).
  Fixpoint gs_op (A : @spmat B) (n : nat) (d : nat -> M) (l : list nat) : vec -> vec :=
    match l with
    | [] => fun _ => vzero n
    | k :: l' => then_op (matvec A) (cstep n k (d k)) (gs_op A n d l')
    end.

  Lemma cstep_lin n k d : lin n n (cstep n k d).
  Proof.
    unfold cstep. split; intros; auto with len.
    - rewrite (ent_vadd L) by congruence. rewrite (act_add B L). vx L n. rewrite !ent_vunit.
      destruct ((k =? i) && (k <? n)); ag LX.
    - rewrite (ent_vsc L), (act_sc B L). vx L n. rewrite !ent_vunit.
      destruct ((k =? i) && (k <? n)); auto. now rewrite (xsc_0 L).
  Qed.
  Lemma gs_op_lin A n d l : wf_mat n n A -> lin n n (gs_op A n d l).
  Proof.
    intros W. induction l; simpl. apply (lin_0 L).
    apply (lin_then L); auto. now apply (matvec_lin L). apply cstep_lin.
  Qed.

  Lemma rhs_row_step A n k d b x : wf_mat n n A -> k < n -> length x = n -> length b = n ->
    rhs_row (getrow A k) k d b x = x +v cstep n k d (residual (matvec A) b x).
  Proof.
    intros [WA _] Hk Hx Hb. unfold rhs_row, cstep, residual.
    rewrite (vinc_vunit L n) by auto. do 3 f_equal.
    rewrite (ent_vsub L) by (side_len n). now rewrite ent_matvec.
  Qed.
  Lemma res_row_step A n k d b x : wf_mat n n A -> sym_mat n A -> k < n -> length x = n -> length b = n ->
    res_row (getrow A k) k d (x, residual (matvec A) b x)
    = (x +v cstep n k d (residual (matvec A) b x), residual (matvec A) b (x +v cstep n k d (residual (matvec A) b x))).
  Proof.
    intros WA S Hk Hx Hb. assert (HA : length A = n) by apply WA. unfold res_row.
    set (r := residual (matvec A) b x). assert (Hr : length r = n) by (unfold r, residual; auto with len).
    assert (E : vinc x k (xopp (xopp (act d (ent r k)))) = x +v cstep n k d r).
    { rewrite (vinc_vunit L n) by auto. unfold cstep. do 2 f_equal. ag LX. }
    rewrite E. f_equal.
    assert (E2 : x +v cstep n k d r = vinc x k (act d (ent r k))) by (unfold cstep; now rewrite <- (vinc_vunit L n)).
    apply (vec_ext n).
    - auto with len.
    - unfold residual, cstep. auto with len.
    - intros j Hj. rewrite (ent_add_row_trans L) by congruence.
      unfold residual at 1. rewrite (ent_vsub L) by (unfold cstep; side_len n).
      rewrite ent_matvec, E2, (row_times_vinc L) by congruence.
      fold (entry A k j) (entry A j k). rewrite (S k j) by auto.
      unfold r at 1, residual at 1. rewrite (ent_vsub L) by (side_len n). rewrite ent_matvec.
      rewrite (act_opp L). change (row_ent (getrow A k) j) with (entry A k j). ag LX.
  Qed.

  Lemma gs_rhs_fold A n d b l x : wf_mat n n A -> (forall k, In k l -> k < n) -> length x = n -> length b = n ->
    fold_left (fun x k => rhs_row (getrow A k) k (d k) b x) l x = x +v gs_op A n d l (residual (matvec A) b x).
  Proof.
    intros W. revert x. induction l as [|k l IH]; intros x Hl Hx Hb.
    - simpl. symmetry. now apply (vadd_zero L).
    - cbn [fold_left gs_op]. rewrite (rhs_row_step A n) by (auto; apply Hl; now left).
      pose proof (cstep_lin n k (d k)) as CL. pose proof (matvec_lin L n n A W) as AL.
      rewrite IH; auto.
      + apply (then_step L n); auto. now apply gs_op_lin.
      + intros; apply Hl; now right.
      + unfold residual; auto 6 with len.
  Qed.
  Lemma gs_res_fold A n d b l x : wf_mat n n A -> sym_mat n A -> (forall k, In k l -> k < n) -> length x = n -> length b = n ->
    let x' := x +v gs_op A n d l (residual (matvec A) b x) in
    fold_left (fun s k => res_row (getrow A k) k (d k) s) l (x, residual (matvec A) b x) = (x', residual (matvec A) b x').
  Proof.
    intros W S. revert x. induction l as [|k l IH]; intros x Hl Hx Hb.
    - simpl. now rewrite (vadd_zero L n).
    - cbn [fold_left gs_op]. rewrite (res_row_step A n) by (auto; apply Hl; now left).
      pose proof (cstep_lin n k (d k)) as CL. pose proof (matvec_lin L n n A W) as AL.
      assert (Hx' : length (x +v cstep n k (d k) (residual (matvec A) b x)) = n) by (unfold residual; auto 6 with len).
      cbv zeta. cbv zeta in IH. rewrite IH; auto; [|intros; apply Hl; now right].
      rewrite (then_step L n); auto. now apply gs_op_lin.
  Qed.

  Definition sweep (fds : option (list bool)) (n first next : nat) (back : bool) : list nat :=
    let l := filter (is_free fds) (seq first (next - first)) in if back then rev l else l.

  Lemma gss3_sweep (minv : M -> M) (A : @spmat B) n repl fds first next back :
    length A = n -> (forall f, fds = Some f -> length f = n) -> next <= n ->
    filter (is_free fds) (gss3_rows (gss3_make minv A repl fds) first next back) = sweep fds n first next back.
  Proof.
    intros HA HF Hn. unfold gss3_rows, sweep, gss3_make. simpl. rewrite HA.
    set (uf := Nat.max first _). set (un := Nat.min next _).
    assert (E : filter (is_free fds) (seq first (next - first)) = filter (is_free fds) (if uf <? un then seq uf (un - uf) else [])).
    { apply filter_seq_sub; [lia|lia|]. intros k Hk Hr.
      pose proof (gss3_range_free n fds HF k ltac:(lia) Hk). lia. }
    rewrite E. destruct back; auto.
    rewrite <- filter_rev'. f_equal. destruct (Nat.ltb_spec uf un).
    - now apply down_list.
    - replace (un - 1 - uf) with 0 by lia. reflexivity.
  Qed.
  Lemma sweep_bound fds n first next back k : next <= n -> In k (sweep fds n first next back) -> k < n.
  Proof.
    intros Hn H. unfold sweep in H. destruct back; [apply in_rev in H|]; apply filter_In in H as [H _]; apply in_seq in H; lia.
  Qed.
  Lemma in_sweep fds n first next back k : In k (sweep fds n first next back) <-> first <= k < next /\ is_free fds k = true.
  Proof.
    unfold sweep. split; intros H.
    - assert (H' : In k (filter (is_free fds) (seq first (next - first)))) by (destruct back; auto; now apply in_rev).
      apply filter_In in H' as [H1 H2]. apply in_seq in H1. split; auto; lia.
    - assert (H' : In k (filter (is_free fds) (seq first (next - first)))) by (apply filter_In; rewrite in_seq; intuition lia).
      destruct back; auto. now apply in_rev in H'.
  Qed.

  Definition g_d (G : GSS3 B) (k : nat) : M := nth k (g_dinv G) m0.

  Lemma gss3_rhs_spec (minv : M -> M) (A : @spmat B) n repl fds first next back x b :
    let G := gss3_make minv A repl fds in
    wf_mat n n A -> (forall f, fds = Some f -> length f = n) -> next <= n -> length x = n -> length b = n ->
    gss3_rhs G first next x b back = x +v gs_op A n (g_d G) (sweep fds n first next back) (residual (matvec A) b x).
  Proof.
    intros G W HF Hn Hx Hb. unfold gss3_rhs. change (g_free G) with fds. change (g_A G) with A.
    rewrite (fold_left_filter (is_free fds)). unfold G at 2. rewrite (gss3_sweep minv A n) by (auto; apply W).
    apply gs_rhs_fold; auto. intros k; now apply sweep_bound.
  Qed.
  Lemma gss3_res_spec (minv : M -> M) (A : @spmat B) n repl fds first next back x b :
    let G := gss3_make minv A repl fds in
    wf_mat n n A -> sym_mat n A -> (forall f, fds = Some f -> length f = n) -> next <= n -> length x = n -> length b = n ->
    let x' := x +v gs_op A n (g_d G) (sweep fds n first next back) (residual (matvec A) b x) in
    gss3_res G first next x (residual (matvec A) b x) back = (x', residual (matvec A) b x').
  Proof.
    intros G W S HF Hn Hx Hb. unfold gss3_res. change (g_free G) with fds. change (g_A G) with A.
    rewrite (fold_left_filter (is_free fds)). unfold G at 2. rewrite (gss3_sweep minv A n) by (auto; apply W).
    apply gs_res_fold; auto. intros k; now apply sweep_bound.
  Qed.
  Lemma calc_residuum_ok n A x b xz : lin n n A -> length b = n -> length x = n -> (xz = true -> x = vzero n) ->
    calc_residuum A x b xz = residual A b x.
  Proof.
    intros AL Hb Hx H. unfold calc_residuum, residual. destruct xz; auto.
    rewrite H, (lin_zero L n n), (vsub_zero L n) by auto. reflexivity.
  Qed.

  Definition gss3_C (minv : M -> M) (A : @spmat B) n repl fds (back : bool) : vec -> vec :=
    gs_op A n (g_d (gss3_make minv A repl fds)) (sweep fds n 0 n back).

  Lemma gss3_contract (minv : M -> M) (A : @spmat B) n repl fds back :
    wf_mat n n A -> sym_mat n A -> (forall f, fds = Some f -> length f = n) ->
    smoother_contract n (matvec A) (gss3_C minv A n repl fds back) (gss3_smooth (gss3_make minv A repl fds) back).
  Proof.
    intros W S HF x b res ru ur xz (Hx & Hb & Hres & Hr & Hz).
    pose proof (matvec_lin L n n A W) as AL.
    assert (HA : length A = n) by apply W.
    pose proof (gs_op_lin A n (g_d (gss3_make minv A repl fds)) (sweep fds n 0 n back) W) as GL.
    assert (HR : length (residual (matvec A) b x) = n) by (unfold residual; auto with len).
    unfold gss3_smooth. simpl g_A. replace (g_H (gss3_make minv A repl fds)) with n by (symmetry; exact HA).
    destruct ru; [rewrite Hr in * by auto|]; (destruct ur; [|clear Hr]).
    - rewrite (gss3_res_spec minv A n) by auto. repeat split; auto. unfold residual; auto 8 with len.
    - rewrite (gss3_rhs_spec minv A n) by auto. repeat split; auto. discriminate.
    - rewrite (calc_residuum_ok n) by auto. rewrite (gss3_res_spec minv A n) by auto.
      repeat split; auto. unfold residual; auto 8 with len.
    - rewrite (gss3_rhs_spec minv A n) by auto. repeat split; auto. discriminate.
  Qed.

  (** *** adjoint *)
  Lemma cstep_adj n k d : k < n -> mtr d = d -> adj n n (cstep n k d) (cstep n k d).
  Proof.
    intros Hk Hd x y Hx Hy. unfold cstep. rewrite (vdot_unit L n) by auto.
    rewrite (vdot_comm L x), (vdot_unit L n) by auto. rewrite (dot_act B L), Hd. apply (dot_comm B L).
  Qed.
  Lemma then_op_ext n A C1 C2 D1 D2 r : lin n n A -> lin n n C1 -> length r = n ->
    (forall r, length r = n -> C1 r = D1 r) -> (forall r, length r = n -> C2 r = D2 r) ->
    then_op A C1 C2 r = @then_op B A D1 D2 r.
  Proof. intros AL CL Hr E1 E2. unfold then_op. rewrite <- E1, <- E2; auto 8 with len. Qed.
  Lemma then_op_assoc n A C1 C2 C3 r : lin n n A -> lin n n C1 -> lin n n C2 -> lin n n C3 -> length r = n ->
    then_op A (then_op A C1 C2) C3 r = then_op A C1 (then_op A C2 C3) r.
  Proof.
    intros AL L1 L2 L3 Hr. unfold then_op.
    rewrite <- (vadd_assoc L n) by auto 10 with len. f_equal. f_equal. f_equal.
    rewrite (lin_add _ _ _ AL) by auto 10 with len. apply (vsub_vadd L n); auto 10 with len.
  Qed.
  Lemma then_op_zero_l n A C r : lin n n A -> lin n n C -> length r = n -> then_op A (fun _ => vzero n) C r = C r.
  Proof.
    intros AL CL Hr. unfold then_op. rewrite (lin_zero L n n), (vsub_zero L n), (vzero_add L n) by auto with len. reflexivity.
  Qed.
  Lemma then_op_zero_r n A C r : lin n n A -> lin n n C -> length r = n -> then_op A C (fun _ => vzero n) r = C r.
  Proof. intros AL CL Hr. unfold then_op. apply (vadd_zero L); auto with len. Qed.
  Lemma gs_op_app A n d l1 l2 r : wf_mat n n A -> length r = n ->
    gs_op A n d (l1 ++ l2) r = then_op (matvec A) (gs_op A n d l1) (gs_op A n d l2) r.
  Proof.
    intros W. pose proof (matvec_lin L n n A W) as AL. revert r. induction l1 as [|k l IH]; intros r Hr.
    - simpl. symmetry. apply then_op_zero_l; auto. now apply gs_op_lin.
    - simpl app. cbn [gs_op]. rewrite (then_op_assoc n); auto using cstep_lin, gs_op_lin.
      apply then_op_ext with n; auto using cstep_lin.
  Qed.
  Lemma gs_op_adj A n d l : wf_mat n n A -> sym_mat n A -> (forall k, In k l -> k < n /\ mtr (d k) = d k) ->
    adj n n (gs_op A n d l) (gs_op A n d (rev l)).
  Proof.
    intros W S. pose proof (matvec_lin L n n A W) as AL. induction l as [|k l IH]; intros H x y Hx Hy.
    - simpl. rewrite (vdot_zero L), (vdot_comm L), (vdot_zero L). reflexivity.
    - simpl rev. rewrite gs_op_app by auto.
      assert (E : then_op (matvec A) (gs_op A n d (rev l)) (gs_op A n d [k]) y
                = then_op (matvec A) (gs_op A n d (rev l)) (cstep n k (d k)) y).
      { apply then_op_ext with n; auto using gs_op_lin. intros r Hr. simpl. apply then_op_zero_r; auto using cstep_lin. }
      rewrite E. cbn [gs_op]. destruct (H k (or_introl eq_refl)).
      apply (adj_then L n); auto using cstep_lin, gs_op_lin.
      + intros u v Hu Hv. now apply (matvec_self_adjoint L n).
      + now apply cstep_adj.
      + apply IH. intros; apply H; now right.
  Qed.

  (** *** constrained entries are never written *)
  Lemma rhs_row_other (r : @row B) k d b x j : j <> k -> ent (rhs_row r k d b x) j = ent x j.
  Proof. intros. unfold rhs_row. rewrite (ent_vinc x). destruct (Nat.eqb_spec k j); auto; congruence. Qed.
  Lemma res_row_other (r : @row B) k d s j : j <> k -> ent (fst (res_row r k d s)) j = ent (fst s) j.
  Proof. intros. destruct s as [x res]. simpl. rewrite ent_vinc. destruct (Nat.eqb_spec k j); auto; congruence. Qed.
  Lemma gss3_rhs_constrained (G : GSS3 B) first next x b back j : is_free (g_free G) j = false ->
    ent (gss3_rhs G first next x b back) j = ent x j.
  Proof.
    intros H. unfold gss3_rhs. revert x. induction (gss3_rows G first next back) as [|k l IH]; intros x; simpl; auto.
    rewrite IH. destruct (is_free (g_free G) k) eqn:E; auto. apply rhs_row_other. congruence.
  Qed.
  Lemma gss3_res_constrained (G : GSS3 B) first next x res back j : is_free (g_free G) j = false ->
    ent (fst (gss3_res G first next x res back)) j = ent x j.
  Proof.
    intros H. unfold gss3_res. change x with (fst (x, res)) at 2. generalize (x, res). 
    induction (gss3_rows G first next back) as [|k l IH]; intros s; simpl; auto.
    rewrite IH. destruct (is_free (g_free G) k) eqn:E; auto. apply res_row_other. congruence.
  Qed.

  (** *** fixed points *)
  Lemma gs_op_zero A n d l r : wf_mat n n A -> length r = n -> (forall k, In k l -> ent r k = x0) -> gs_op A n d l r = vzero n.
  Proof.
    intros W. pose proof (matvec_lin L n n A W) as AL. revert r. induction l as [|k l IH]; intros r Hr H; auto.
    cbn [gs_op]. unfold then_op. assert (E : cstep n k (d k) r = vzero n).
    { unfold cstep. rewrite H by now left. rewrite (act_x0 L). vx L n. rewrite ent_vunit. now destruct (_ && _). }
    rewrite E. rewrite (lin_zero L n n), (vsub_zero L n), IH, (vzero_add L n) by (auto with len; intros; apply H; now right). reflexivity.
  Qed.
  Lemma gs_op_other A n d l r j : wf_mat n n A -> length r = n -> ~ In j l -> ent (gs_op A n d l r) j = x0.
  Proof.
    intros W. pose proof (matvec_lin L n n A W) as AL. revert r. induction l as [|k l IH]; intros r Hr H.
    - simpl. apply ent_vzero.
    - cbn [gs_op]. unfold then_op. pose proof (cstep_lin n k (d k)). pose proof (gs_op_lin A n d l W).
      rewrite (ent_vadd L) by (side_len n).
      rewrite IH by (auto with len; intros Hin; apply H; now right). unfold cstep. rewrite ent_vunit.
      destruct (Nat.eqb_spec k j); [exfalso; apply H; now left|]. simpl. ag LX.
  Qed.
  Lemma gs_op_zero_inv A n d l r : wf_mat n n A -> length r = n -> NoDup l -> (forall k, In k l -> k < n) ->
    (forall k u, In k l -> act (d k) u = x0 -> u = x0) ->
    gs_op A n d l r = vzero n -> forall k, In k l -> ent r k = x0.
  Proof.
    intros W. pose proof (matvec_lin L n n A W) as AL. revert r. induction l as [|k l IH]; intros r Hr ND Hb Hd E j Hj; [easy|].
    apply NoDup_cons_iff in ND as [Hk NDl]. cbn [gs_op] in E. unfold then_op in E.
    pose proof (cstep_lin n k (d k)) as CL. pose proof (gs_op_lin A n d l W) as GL.
    assert (Ek : ent r k = x0).
    { apply (Hd k); [now left|]. apply (f_equal (fun v => ent v k)) in E. rewrite ent_vzero in E.
      rewrite (ent_vadd L) in E by (side_len n). rewrite gs_op_other in E by auto with len.
      unfold cstep in E. rewrite ent_vunit in E. rewrite Nat.eqb_refl in E. simpl in E.
      assert (k < n) by (apply Hb; now left). apply Nat.ltb_lt in H. rewrite H in E. rewrite <- E. ag LX. }
    destruct Hj as [->|Hj]; auto.
    assert (E0 : cstep n k (d k) r = vzero n).
    { unfold cstep. rewrite Ek, (act_x0 L). vx L n. rewrite ent_vunit. now destruct (_ && _). }
    rewrite E0 in E. rewrite (lin_zero L n n), (vsub_zero L n), (vzero_add L n) in E by auto with len.
    apply IH; auto; intros; [apply Hb; now right|eapply Hd; eauto; now right].
  Qed.
  Lemma sweep_NoDup fds n first next back : NoDup (sweep fds n first next back).
  Proof.
    unfold sweep. assert (H : NoDup (filter (is_free fds) (seq first (next - first)))) by (apply NoDup_filter, seq_NoDup).
    destruct back; auto. now apply NoDup_rev.
  Qed.

  (** *** energy *)
  Lemma cstep_energy A n k d b x (D : M) : wf_mat n n A -> sym_mat n A -> k < n -> length x = n -> length b = n ->
    act D (act d (ent (residual (matvec A) b x) k)) = ent (residual (matvec A) b x) k ->
    let u := act d (ent (residual (matvec A) b x) k) in
    energy (matvec A) b (x +v cstep n k d (residual (matvec A) b x))
    = kadd (energy (matvec A) b x) (ksub (dot (act (entry A k k) u) u) (kadd (dot (act D u) u) (dot (act D u) u))).
  Proof.
    intros W S Hk Hx Hb HD u. pose proof (matvec_lin L n n A W) as AL.
    set (r := residual (matvec A) b x) in *. assert (Hr : length r = n) by (unfold r, residual; auto with len).
    rewrite (energy_add L n); auto.
    2:{ intros p q Hp Hq. now apply (matvec_self_adjoint L n). }
    2:{ unfold cstep. auto with len. }
    fold r. f_equal. f_equal.
    - unfold cstep. rewrite (vdot_comm L), (vdot_unit L n) by auto with len.
      rewrite (dot_comm B L). f_equal. rewrite ent_matvec.
      assert (E : vunit n k u = vinc (vzero n) k u).
      { rewrite (vinc_vunit L n) by auto with len. symmetry. apply (vzero_add L). auto with len. }
      fold u. rewrite E, (row_times_vinc L) by (now rewrite vzero_length).
      rewrite (row_times_zero L). change (row_ent (getrow A k) k) with (entry A k k). ag LX.
    - assert (E : vdot r (cstep n k d r) = dot (act D u) u).
      { unfold cstep. rewrite (vdot_comm L), (vdot_unit L n) by auto. unfold u. rewrite HD. apply (dot_comm B L). }
      now rewrite E.
  Qed.
  Lemma gs_op_energy (le : K -> K -> Prop) (KO : KOrder le) A n d (D : nat -> M) b l x :
    wf_mat n n A -> sym_mat n A -> (forall k, In k l -> k < n) -> length x = n -> length b = n ->
    (forall k v, In k l -> act (D k) (act (d k) v) = v) ->
    (forall k u, In k l -> le (dot (act (entry A k k) u) u) (kadd (dot (act (D k) u) u) (dot (act (D k) u) u))) ->
    le (energy (matvec A) b (x +v gs_op A n d l (residual (matvec A) b x))) (energy (matvec A) b x).
  Proof.
    intros W S. pose proof (matvec_lin L n n A W) as AL. revert x. induction l as [|k l IH]; intros x Hl Hx Hb HD HP.
    - simpl. rewrite (vadd_zero L n) by auto. apply (ko_refl _ KO).
    - cbn [gs_op]. pose proof (cstep_lin n k (d k)) as CL. pose proof (gs_op_lin A n d l W) as GL.
      rewrite <- (then_step L n) by auto.
      eapply (ko_trans _ KO). apply IH; auto.
      + intros; apply Hl; now right.
      + unfold residual; auto 8 with len.
      + intros; apply HD; now right.
      + intros; apply HP; now right.
      + rewrite (cstep_energy A n k (d k) b x (D k)) by (auto; try apply HD; try apply Hl; now left).
        cbv zeta. set (u := act (d k) _).
        pose proof (HP k u (or_introl eq_refl)) as H. 
        apply (ko_add _ KO _ _ (ksub (energy (matvec A) b x) (kadd (dot (act (D k) u) u) (dot (act (D k) u) u)))) in H.
        refine (le_eq2 le _ _ _ _ _ _ H); ring.
  Qed.
End GS.
