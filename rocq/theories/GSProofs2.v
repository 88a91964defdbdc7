From Verif Require Import Base AGroup LinAlg LinTools GSSpec GSModel GSProofs.
From Coq Require Import Ring Ring_theory.

Lemma map_nth_seq {A} (l : list A) d : map (fun i => nth i l d) (seq 0 (length l)) = l.
Proof.
  apply nth_ext_len with d; rewrite map_length, seq_length; auto.
  intros i Hi. rewrite (nth_indep _ d (nth 0 l d)) by (rewrite map_length, seq_length; auto).
  rewrite (map_nth (fun i => nth i l d)), seq_nth by auto. reflexivity.
Qed.
Lemma num_set_le f : num_set f <= length f.
Proof. unfold num_set. induction f as [|b f IH]; simpl; [lia|]. destruct b; simpl; lia. Qed.
Lemma num_set_all f : num_set f = length f -> forall k, k < length f -> nth k f false = true.
Proof.
  unfold num_set. induction f as [|b f IH]; simpl; intros H k Hk; [lia|].
  pose proof (num_set_le f) as H'. unfold num_set in H'.
  destruct b; simpl in *; [|lia]. destruct k; auto. apply IH; lia.
Qed.

Section GS4.
  Context {B : Blk}.
  Local Notation X := (X B). Local Notation M := (M B). Local Notation K := (K B).
  Local Notation vec := (list X).

  Lemma fold_idx {S} (xd : list nat) (g : nat -> S -> S) (f : nat -> S -> S) l s :
    (forall i s, In i l -> g i s = f (nth i xd 0) s) ->
    fold_left (fun s i => g i s) l s = fold_left (fun s k => f k s) (map (fun i => nth i xd 0) l) s.
  Proof. intros H. rewrite fold_left_map'. apply fold_left_ext_in. intros; now apply H. Qed.

  Lemma gss4_setup_rows (A : @spmat B) n fds xd cA : length A = n -> (forall f, fds = Some f -> length f = n) ->
    gss4_setup A fds = (xd, cA) ->
    xd = filter (is_free fds) (seq 0 n) /\ length cA = length xd /\ forall i, i < length xd -> getrow cA i = getrow A (nth i xd 0).
  Proof.
    intros HA HF. unfold gss4_setup. rewrite HA. destruct fds as [f|].
    - specialize (HF f eq_refl). destruct (Nat.eqb_spec (num_set f) n) as [E|E]; intros H; inversion H; subst xd cA; clear H.
      + rewrite filter_all.
        * rewrite seq_length. repeat split; auto. intros i Hi. now rewrite seq_nth.
        * intros k Hk. apply in_seq in Hk. simpl. apply num_set_all; lia.
      + rewrite map_length. repeat split; auto. intros i Hi. unfold getrow at 1.
        set (xd := filter _ _) in *. set (h := fun k => filter _ (getrow A k)).
        rewrite (nth_indep _ [] (h 0)) by now rewrite map_length. rewrite map_nth. unfold h.
        apply filter_all. intros p Hp. unfold gss4_res_subset. apply existsb_exists. exists (nth i xd 0).
        assert (Hin : In (nth i xd 0) xd) by now apply nth_In.
        apply filter_In in Hin as [H1 H2]. split; [now rewrite HA|]. rewrite H2. simpl.
        apply orb_true_iff. right. apply existsb_exists. exists p. split; auto. apply Nat.eqb_refl.
    - intros H; inversion H; subst xd cA. rewrite filter_all by auto. rewrite seq_length. repeat split; auto.
      intros i Hi. now rewrite seq_nth.
  Qed.

  (** when the compressed smoother has the right diagonal *)
  Definition gss4_diag_ok (n : nat) (repl : list M) (fds : option (list bool)) : Prop :=
    length repl = n \/ (repl = [] /\ forall k, k < n -> is_free fds k = true).

  Lemma gss3_d_free minv (A : @spmat B) n repl fds k : length A = n -> k < n -> is_free fds k = true ->
    nth k (g_dinv (gss3_make minv A repl fds)) m0 = minv (if length repl =? 0 then entry A k k else nth k repl m0).
  Proof.
    intros HA Hk Hf. simpl. unfold gss3_calc_diags. rewrite HA.
    set (h := fun i => if is_free fds i then _ else m0).
    rewrite (nth_indep _ m0 (h 0)) by now rewrite map_length, seq_length. rewrite map_nth, seq_nth by auto.
    unfold h. simpl. now rewrite Hf.
  Qed.

  Lemma gss4_diag minv (A : @spmat B) n repl fds : length A = n -> (forall f, fds = Some f -> length f = n) ->
    gss4_diag_ok n repl fds ->
    let G := gss4_make minv A repl fds in
    h_xdofs G = filter (is_free fds) (seq 0 n) /\ length (h_cA G) = length (h_xdofs G) /\
    forall i, i < length (h_xdofs G) ->
      getrow (h_cA G) i = getrow A (nth i (h_xdofs G) 0) /\
      nth i (h_dinv G) m0 = nth (nth i (h_xdofs G) 0) (g_dinv (gss3_make minv A repl fds)) m0.
  Proof.
    intros HA HF HD. unfold gss4_make. destruct (gss4_setup A fds) as [xd cA] eqn:E.
    pose proof (gss4_setup_rows A n fds xd cA HA HF E) as (E1 & E2 & E3). simpl h_xdofs. simpl h_cA. simpl h_dinv.
    repeat split; auto.
    set (h := fun i => minv _).
    rewrite (nth_indep _ m0 (h 0)) by now rewrite map_length, seq_length. rewrite map_nth, seq_nth by auto.
    unfold h. simpl plus.
    assert (Hin : In (nth i xd 0) xd) by now apply nth_In. rewrite E1 in Hin.
    apply filter_In in Hin as [H1 H2]. apply in_seq in H1. rewrite <- E1 in *.
    rewrite (gss3_d_free minv A n) by (auto; lia). f_equal.
    destruct HD as [HD|[-> HD]].
    - destruct (length repl =? 0) eqn:Z; auto. apply Nat.eqb_eq in Z. lia.
    - simpl. unfold entry. rewrite E3 by auto. do 2 f_equal.
      assert (E4 : xd = seq 0 n). { rewrite E1. apply filter_all. intros k Hk. apply HD. apply in_seq in Hk. lia. }
      rewrite E4 in *. rewrite seq_length in *. now rewrite seq_nth.
  Qed.

  Lemma gss4_dofs minv (A : @spmat B) n repl fds bw : length A = n -> (forall f, fds = Some f -> length f = n) ->
    gss4_diag_ok n repl fds ->
    let G := gss4_make minv A repl fds in
    map (fun i => nth i (h_xdofs G) 0) (gss4_rows G bw) = sweep fds n 0 n bw /\
    forall i, In i (gss4_rows G bw) -> i < length (h_xdofs G).
  Proof.
    intros HA HF HD. pose proof (gss4_diag minv A n repl fds HA HF HD) as H. cbv zeta in *.
    set (G := gss4_make minv A repl fds) in *. destruct H as (E1 & E2 & _).
    unfold gss4_rows, sweep. rewrite E2, Nat.sub_0_r, <- E1. split.
    - destruct bw.
      + rewrite down_list0, map_rev. f_equal. apply map_nth_seq.
      + apply map_nth_seq.
    - intros i Hi. destruct bw; [rewrite down_list0 in Hi; apply in_rev in Hi|]; apply in_seq in Hi; lia.
  Qed.

  Lemma gss4_rhs_eq minv (A : @spmat B) n repl fds x b bw : length A = n -> (forall f, fds = Some f -> length f = n) ->
    gss4_diag_ok n repl fds ->
    gss4_rhs (gss4_make minv A repl fds) x b bw = gss3_rhs (gss3_make minv A repl fds) 0 n x b bw.
  Proof.
    intros HA HF HD. pose proof (gss4_diag minv A n repl fds HA HF HD) as H.
    pose proof (gss4_dofs minv A n repl fds bw HA HF HD) as H'. cbv zeta in *.
    set (G3 := gss3_make minv A repl fds) in *. set (G := gss4_make minv A repl fds) in *.
    destruct H as (E1 & E2 & E3). destruct H' as (E4 & E5).
    unfold gss4_rhs, gss3_rhs. change (g_free G3) with fds. change (g_A G3) with A.
    rewrite (fold_left_filter (is_free fds)). unfold G3 at 2. rewrite (gss3_sweep minv A n) by auto.
    rewrite <- E4.
    apply (fold_idx (h_xdofs G) (fun i x => rhs_row (getrow (h_cA G) i) (nth i (h_xdofs G) 0) (nth i (h_dinv G) m0) b x)
      (fun k x => rhs_row (getrow A k) k (nth k (g_dinv G3) m0) b x)).
    intros i s Hi. apply E5 in Hi. destruct (E3 i Hi) as [-> ->]. reflexivity.
  Qed.
  Lemma gss4_res_eq minv (A : @spmat B) n repl fds x res bw : length A = n -> (forall f, fds = Some f -> length f = n) ->
    gss4_diag_ok n repl fds ->
    gss4_res (gss4_make minv A repl fds) x res bw = gss3_res (gss3_make minv A repl fds) 0 n x res bw.
  Proof.
    intros HA HF HD. pose proof (gss4_diag minv A n repl fds HA HF HD) as H.
    pose proof (gss4_dofs minv A n repl fds bw HA HF HD) as H'. cbv zeta in *.
    set (G3 := gss3_make minv A repl fds) in *. set (G := gss4_make minv A repl fds) in *.
    destruct H as (E1 & E2 & E3). destruct H' as (E4 & E5).
    unfold gss4_res, gss3_res. change (g_free G3) with fds. change (g_A G3) with A.
    rewrite (fold_left_filter (is_free fds)). unfold G3 at 2. rewrite (gss3_sweep minv A n) by auto.
    rewrite <- E4.
    apply (fold_idx (h_xdofs G) (fun i s => res_row (getrow (h_cA G) i) (nth i (h_xdofs G) 0) (nth i (h_dinv G) m0) s)
      (fun k s => res_row (getrow A k) k (nth k (g_dinv G3) m0) s)).
    intros i s Hi. apply E5 in Hi. destruct (E3 i Hi) as [-> ->]. reflexivity.
  Qed.
End GS4.

Section Comb.
  Context {B : Blk} (L : BlkLaws B).
  Local Notation X := (X B). Local Notation M := (M B). Local Notation K := (K B).
  Local Notation vec := (list X).
  Local Notation lin := (@lin B). Local Notation adj := (@adj B).
  Add Ring Kring4 : (lawK B L).

  Lemma contract_len n A C f : lin n n A -> lin n n C -> smoother_contract n A C f ->
    forall x b res ru ur xz, flags_ok n A x b res ru xz ->
    let (x', res') := f x b res ru ur xz in
    length x' = n /\ length res' = n /\ x' = x +v C (residual A b x) /\
    (ur = true -> res' = residual A b x') /\ flags_ok n A x' b res' ur false.
  Proof.
    intros AL CL HC x b res ru ur xz F. pose proof (HC x b res ru ur xz F) as H.
    destruct (f x b res ru ur xz) as [x' res']. destruct H as (-> & H2 & H3).
    destruct F as (Hx & Hb & _).
    assert (length (x +v C (residual A b x)) = n) by (unfold residual; auto 8 with len).
    repeat split; auto. discriminate.
  Qed.

  Lemma contract_ext n A C C' f : lin n n A -> (forall r, length r = n -> C r = C' r) ->
    smoother_contract n A C f -> smoother_contract n A C' f.
  Proof.
    intros AL E H x b res ru ur xz F. specialize (H x b res ru ur xz F).
    destruct (f x b res ru ur xz) as [x' res']. destruct H as (H1 & H2 & H3). repeat split; auto.
    rewrite <- E; auto. destruct F as (Hx & Hb & _). unfold residual; auto with len.
  Qed.

  Lemma contract_symm n A C1 C2 fw bw : lin n n A -> lin n n C1 -> lin n n C2 ->
    smoother_contract n A C1 fw -> smoother_contract n A C2 bw ->
    smoother_contract n A (then_op A C1 C2) (smooth_symm fw bw).
  Proof.
    intros AL L1 L2 H1 H2 x b res ru ur xz F. unfold smooth_symm.
    pose proof (contract_len n A C1 fw AL L1 H1 x b res ru ur xz F) as G.
    destruct (fw x b res ru ur xz) as [x1 r1]. destruct G as (_ & _ & E & _ & G).
    pose proof (H2 x1 b r1 ur ur false G) as G2.
    destruct (bw x1 b r1 ur ur false) as [x2 r2]. destruct G2 as (E2 & E3 & E4). repeat split; auto.
    rewrite E2, E. destruct F as (Hx & Hb & _). now apply (then_step L n).
  Qed.

  (** k-fold repetition *)
  Fixpoint pow_op (A C : vec -> vec) (k : nat) : vec -> vec :=
    match k with O => C | S k' => then_op A (pow_op A C k') C end.
  Lemma pow_lin n A C k : lin n n A -> lin n n C -> lin n n (pow_op A C k).
  Proof. intros; induction k; simpl; auto. now apply (lin_then L). Qed.
  Lemma contract_k n A C f k : lin n n A -> lin n n C ->
    smoother_contract n A C f -> smoother_contract n A (pow_op A C (k - 1)) (smooth_k k f).
  Proof.
    intros AL CL H x b res ru ur xz F. unfold smooth_k. induction (k - 1) as [|m IH].
    - apply (H x b res ru ur xz F).
    - rewrite seq_S, fold_left_app. simpl.
      set (s := fold_left _ _ _) in *. destruct s as [x1 r1]. destruct IH as (E & Hr & E1).
      pose proof (pow_lin n A C m AL CL) as PL. destruct F as (Hx & Hb & Hres & F1 & F2).
      assert (Hx1 : length x1 = n) by (rewrite E; unfold residual; auto 8 with len).
      assert (F' : flags_ok n A x1 b r1 ur false) by (repeat split; auto; discriminate).
      pose proof (H x1 b r1 ur ur false F') as G. simpl.
      destruct (f x1 b r1 ur ur false) as [x2 r2]. destruct G as (E2 & E3 & E4). repeat split; auto.
      rewrite E2, E. now apply (then_step L n).
  Qed.
  Lemma pow_comm n A C k r : lin n n A -> lin n n C -> length r = n ->
    then_op A (pow_op A C k) C r = then_op A C (pow_op A C k) r.
  Proof.
    intros AL CL. revert r. induction k; intros r Hr; simpl; auto.
    rewrite (then_op_ext n A (then_op A (pow_op A C k) C) C (then_op A C (pow_op A C k)) C) by auto using lin_then, pow_lin.
    apply (then_op_assoc L n); auto using pow_lin.
  Qed.
  Lemma pow_adj n A C D k : lin n n A -> lin n n C -> lin n n D -> adj n n A A -> adj n n C D ->
    adj n n (pow_op A C k) (pow_op A D k).
  Proof.
    intros AL CL DL HA HC. induction k; simpl; auto.
    intros x y Hx Hy. rewrite (pow_comm n A D) by auto.
    apply (adj_then L n); auto using pow_lin.
  Qed.
  Lemma symm_adj n A C D : lin n n A -> lin n n C -> lin n n D -> adj n n A A -> adj n n C D ->
    adj n n (then_op A C D) (then_op A C D).
  Proof. intros. apply (adj_then L n); auto. now apply (adj_sym L). Qed.

  (** Richardson / Jacobi *)
  Lemma contract_richardson n A P om : lin n n A -> lin n n P ->
    smoother_contract n A (fun r => vsc om (P r)) (richardson_smooth A P om).
  Proof.
    intros AL PL x b res ru ur xz (Hx & Hb & Hres & Hr & Hz). unfold richardson_smooth.
    destruct ru; cbn [negb andb].
    - rewrite Hr by auto. repeat split; auto; destruct ur; auto; try discriminate; unfold residual; auto 8 with len.
    - destruct xz; cbn [andb].
      + assert (E : residual A b x = b) by (unfold residual; rewrite Hz, (lin_zero L n n), (vsub_zero L n) by auto; reflexivity).
        rewrite E. repeat split; auto; destruct ur; auto; try discriminate; auto 8 with len.
      + fold (residual A b x). repeat split; auto; destruct ur; auto; try discriminate; unfold residual; auto 8 with len.
  Qed.
  Lemma diag_mult_len (d : list M) (x : vec) : length (diag_mult d x) = length d.
  Proof. unfold diag_mult. now rewrite map_length, seq_length. Qed.
  Lemma len_diag n (d : list M) (x : vec) : length d = n -> length (diag_mult d x) = n.
  Proof. intros; subst. apply diag_mult_len. Qed.
  Hint Resolve len_diag : len.
  Lemma ent_diag n (d : list M) (x : vec) i : length d = n -> i < n -> ent (diag_mult d x) i = act (nth i d m0) (ent x i).
  Proof.
    intros Hd Hi. unfold diag_mult, ent at 1. set (h := fun i => _).
    rewrite (nth_indep _ x0 (h 0)) by now rewrite map_length, seq_length, Hd.
    rewrite map_nth, seq_nth by congruence. reflexivity.
  Qed.
  Lemma diag_lin n (d : list M) : length d = n -> lin n n (diag_mult d).
  Proof.
    intros H. split; intros; auto with len.
    - apply (vec_ext n); auto with len. intros i Hi. rewrite (ent_vadd L) by (side_len n).
      rewrite !(ent_diag n) by auto. rewrite (ent_vadd L) by congruence. apply (act_add B L).
    - apply (vec_ext n); auto with len. intros i Hi. rewrite (ent_vsc L).
      rewrite !(ent_diag n) by auto. rewrite (ent_vsc L). apply (act_sc B L).
  Qed.
  Lemma diag_adj n (d : list M) : length d = n -> (forall k, k < n -> mtr (nth k d m0) = nth k d m0) ->
    adj n n (diag_mult d) (diag_mult d).
  Proof.
    intros H HS x y Hx Hy. rewrite !(vdot_ksum n) by auto with len. apply ksum_ext. intros i Hi.
    rewrite !(ent_diag n) by auto. rewrite (dot_act B L), HS; auto.
  Qed.
  Lemma scale_adj n om (P : vec -> vec) : adj n n P P -> adj n n (fun r => vsc om (P r)) (fun r => vsc om (P r)).
  Proof. intros H x y Hx Hy. rewrite (vdot_sc L), (vdot_sc_r L), H; auto. Qed.

  (** Hiptmair *)
  Definition pot_corr (h : HiptMair B) (Cp : vec -> vec) (r : vec) : vec := hm_D h (Cp (hm_DT h r)).

  Record hm_ok (n m : nat) (h : HiptMair B) (Apot : vec -> vec) (Cp Cr : bool -> vec -> vec) : Prop := mkHMok {
    ho_A : lin n n (hm_A h); ho_Apot : lin m m Apot; ho_D : lin m n (hm_D h); ho_DT : lin n m (hm_DT h);
    ho_Cp : forall bk, lin m m (Cp bk); ho_Cr : forall bk, lin n n (Cr bk);
    ho_npot : hm_npot h = m;
    ho_ARD : forall f, hm_ARD h = Some f -> forall v, length v = m -> f v = hm_A h (hm_D h v);
    ho_DTAR : forall f, hm_DTAR h = Some f -> forall v, length v = n -> f v = hm_DT h (hm_A h v);
    ho_pot : forall bk, smoother_contract m Apot (Cp bk) (hm_pot h bk);
    ho_range : forall bk, smoother_contract n (hm_A h) (Cr bk) (hm_range h bk) }.

  Lemma pot_corr_lin n m h Apot Cp Cr bk : hm_ok n m h Apot Cp Cr -> lin n n (pot_corr h (Cp bk)).
  Proof.
    intros H. unfold pot_corr. apply (lin_compose n m n (fun r => Cp bk (hm_DT h r)) (hm_D h)); [|apply H].
    apply (lin_compose n m m (hm_DT h) (Cp bk)); apply H.
  Qed.
  Lemma hm_pot_rhs_ok n m h Apot Cp Cr x b res ru xz : hm_ok n m h Apot Cp Cr ->
    length x = n -> length b = n -> length res = n -> (ru = true -> res = residual (hm_A h) b x) ->
    (xz = true -> ru = false -> hm_DTAR h = None -> x = vzero n) ->
    let '(res', rhs, up) := hm_calc_pot_rhs h x b res ru xz ru in
    rhs = hm_DT h (residual (hm_A h) b x) /\ length res' = n /\ (up = true -> res' = residual (hm_A h) b x) /\ (ru = true -> up = true).
  Proof.
    intros H Hx Hb Hres Hr Hz. pose proof (ho_A _ _ _ _ _ _ H) as AL. pose proof (ho_DT _ _ _ _ _ _ H) as DL.
    unfold hm_calc_pot_rhs. destruct ru; cbn [negb orb].
    - rewrite Hr by auto. repeat split; auto. unfold residual; auto with len.
    - destruct (hm_DTAR h) as [f|] eqn:E.
      + repeat split; auto; try discriminate. rewrite (ho_DTAR _ _ _ _ _ _ H f E) by auto.
        rewrite <- (vsub_sc L m) by auto with len. unfold residual. symmetry. apply (lin_sub L n m); auto with len.
      + rewrite (calc_residuum_ok L n) by auto. repeat split; auto. unfold residual; auto with len.
  Qed.
  Lemma hm_pot_sol n m h Apot Cp Cr bk r : hm_ok n m h Apot Cp Cr -> length r = m ->
    fst (hm_pot h bk (vzero (hm_npot h)) r (vzero (hm_npot h)) false false true) = Cp bk r.
  Proof.
    intros H Hr. pose proof (ho_pot _ _ _ _ _ _ H bk) as HC. rewrite (ho_npot _ _ _ _ _ _ H).
    specialize (HC (vzero m) r (vzero m) false false true).
    assert (F : flags_ok m Apot (vzero m) r (vzero m) false true) by (repeat split; auto with len; discriminate).
    specialize (HC F). destruct (hm_pot h bk _ _ _ _ _ _) as [x' r']. destruct HC as (-> & _ & _). simpl.
    pose proof (ho_Apot _ _ _ _ _ _ H) as AL. pose proof (ho_Cp _ _ _ _ _ _ H bk) as CL.
    unfold residual. rewrite (lin_zero L m m), (vsub_zero L m), (vzero_add L m) by auto with len. reflexivity.
  Qed.
  Lemma hm_apply_ok n m h Apot Cp Cr x b res ru ur u : hm_ok n m h Apot Cp Cr ->
    length x = n -> length b = n -> length res = n -> length u = m -> (ru = true -> res = residual (hm_A h) b x) ->
    let '(x', res', up) := hm_apply_pot_update h x u b res ru ur in
    x' = x +v hm_D h u /\ length res' = n /\ up = ur /\ (up = true -> res' = residual (hm_A h) b x').
  Proof.
    intros H Hx Hb Hres Hu Hr. pose proof (ho_A _ _ _ _ _ _ H) as AL. pose proof (ho_D _ _ _ _ _ _ H) as DL.
    unfold hm_apply_pot_update. destruct ur; [|repeat split; auto; discriminate].
    repeat split; auto; destruct (hm_ARD h) as [f|] eqn:E; try destruct ru; cbn [negb]; try reflexivity;
      try (unfold calc_residuum; auto with len; fail).
    - pose proof (ho_ARD _ _ _ _ _ _ H f E u Hu) as EF. rewrite EF. auto with len.
    - intros _. rewrite Hr by auto. rewrite (ho_ARD _ _ _ _ _ _ H f E u Hu). unfold residual.
      rewrite (lin_add _ _ _ AL) by auto with len. symmetry. apply (vsub_vadd L n); auto with len.
  Qed.

  Definition hm_C (h : HiptMair B) (Cp Cr : bool -> vec -> vec) (bk : bool) : vec -> vec :=
    if Bool.eqb bk (hm_potfirst h) then then_op (hm_A h) (Cr bk) (pot_corr h (Cp bk))
    else then_op (hm_A h) (pot_corr h (Cp bk)) (Cr bk).

  Lemma contract_hm_smooth n m h Apot Cp Cr : hm_ok n m h Apot Cp Cr ->
    smoother_contract n (hm_A h) (hm_C h Cp Cr false) (hm_smooth h).
  Proof.
    intros H x b res ru ur xz F. unfold hm_smooth, hm_C.
    pose proof (ho_A _ _ _ _ _ _ H) as AL. pose proof (ho_D _ _ _ _ _ _ H) as DL. pose proof (ho_DT _ _ _ _ _ _ H) as DTL.
    pose proof (ho_Cp _ _ _ _ _ _ H false) as CpL. pose proof (ho_Cr _ _ _ _ _ _ H false) as CrL.
    pose proof (pot_corr_lin n m h Apot Cp Cr false H) as PL.
    destruct F as (Hx & Hb & Hres & Hr & Hz).
    destruct (hm_potfirst h); cbn [negb Bool.eqb].
    - pose proof (hm_pot_rhs_ok n m h Apot Cp Cr x b res ru xz H Hx Hb Hres Hr (fun a _ _ => Hz a)) as G1.
      destruct (hm_calc_pot_rhs h x b res ru xz ru) as [[r1 rhs] up]. destruct G1 as (-> & L1 & U1 & _).
      assert (HR : length (residual (hm_A h) b x) = n) by (unfold residual; auto with len).
      pose proof (hm_pot_sol n m h Apot Cp Cr false (hm_DT h (residual (hm_A h) b x)) H ltac:(auto with len)) as G2.
      destruct (hm_pot h false _ _ _ _ _ _) as [sol rp]. simpl in G2. subst sol.
      set (u := Cp false (hm_DT h (residual (hm_A h) b x))). assert (Hu : length u = m) by (unfold u; auto with len).
      pose proof (hm_apply_ok n m h Apot Cp Cr x b r1 up up u H Hx Hb L1 Hu U1) as G3.
      destruct (hm_apply_pot_update h x u b r1 up up) as [[x2 r2] up2]. destruct G3 as (E2 & L2 & -> & U2).
      assert (Hx2 : length x2 = n) by (rewrite E2; auto with len).
      assert (F2 : flags_ok n (hm_A h) x2 b r2 up false) by (repeat split; auto; discriminate).
      pose proof (ho_range _ _ _ _ _ _ H false x2 b r2 up ur false F2) as G4.
      destruct (hm_range h false x2 b r2 up ur false) as [x3 r3]. destruct G4 as (E3 & L3 & U3).
      repeat split; auto. rewrite E3, E2. apply (then_step L n (hm_A h) (pot_corr h (Cp false)) (Cr false)); auto.
    - assert (F0 : flags_ok n (hm_A h) x b res ru xz) by (repeat split; auto).
      pose proof (contract_len n (hm_A h) (Cr false) (hm_range h false) AL CrL (ho_range _ _ _ _ _ _ H false) x b res ru ru xz F0) as G0.
      destruct (hm_range h false x b res ru ru xz) as [x1 r1]. destruct G0 as (Lx1 & Lr1 & E1 & U1 & _).
      pose proof (hm_pot_rhs_ok n m h Apot Cp Cr x1 b r1 ru false H Lx1 Hb Lr1 U1 ltac:(discriminate)) as G1.
      destruct (hm_calc_pot_rhs h x1 b r1 ru false ru) as [[r2 rhs] up]. destruct G1 as (-> & L2 & U2 & _).
      assert (HR : length (residual (hm_A h) b x1) = n) by (unfold residual; auto with len).
      pose proof (hm_pot_sol n m h Apot Cp Cr false (hm_DT h (residual (hm_A h) b x1)) H ltac:(auto with len)) as G2.
      destruct (hm_pot h false _ _ _ _ _ _) as [sol rp]. simpl in G2. subst sol.
      set (u := Cp false (hm_DT h (residual (hm_A h) b x1))). assert (Hu : length u = m) by (unfold u; auto with len).
      pose proof (hm_apply_ok n m h Apot Cp Cr x1 b r2 up ur u H Lx1 Hb L2 Hu U2) as G3.
      destruct (hm_apply_pot_update h x1 u b r2 up ur) as [[x2 r3] up2]. destruct G3 as (E2 & L3 & -> & U3).
      repeat split; auto. rewrite E2. unfold u. rewrite E1. apply (then_step L n (hm_A h) (Cr false) (pot_corr h (Cp false))); auto.
  Qed.

  (** SmoothBack needs: not (potFirst and x_zero and not res_updated and no DT_AR matrix) *)
  Lemma contract_hm_smooth_back n m h Apot Cp Cr : hm_ok n m h Apot Cp Cr ->
    forall x b res ru ur xz, flags_ok n (hm_A h) x b res ru xz ->
    (hm_potfirst h = true -> xz = true -> ru = false -> hm_DTAR h <> None) ->
    let (x', res') := hm_smooth_back h x b res ru ur xz in
    x' = x +v hm_C h Cp Cr true (residual (hm_A h) b x) /\ length res' = n /\
    (ur = true -> res' = residual (hm_A h) b x').
  Proof.
    intros H x b res ru ur xz F NB. unfold hm_smooth_back, hm_C.
    pose proof (ho_A _ _ _ _ _ _ H) as AL. pose proof (ho_D _ _ _ _ _ _ H) as DL. pose proof (ho_DT _ _ _ _ _ _ H) as DTL.
    pose proof (ho_Cp _ _ _ _ _ _ H true) as CpL. pose proof (ho_Cr _ _ _ _ _ _ H true) as CrL.
    pose proof (pot_corr_lin n m h Apot Cp Cr true H) as PL.
    destruct F as (Hx & Hb & Hres & Hr & Hz).
    destruct (hm_potfirst h); cbn [negb Bool.eqb].
    - assert (F0 : flags_ok n (hm_A h) x b res ru xz) by (repeat split; auto).
      pose proof (contract_len n (hm_A h) (Cr true) (hm_range h true) AL CrL (ho_range _ _ _ _ _ _ H true) x b res ru ru xz F0) as G0.
      destruct (hm_range h true x b res ru ru xz) as [x1 r1]. destruct G0 as (Lx1 & Lr1 & E1 & U1 & _).
      pose proof (hm_pot_rhs_ok n m h Apot Cp Cr x1 b r1 ru xz H Lx1 Hb Lr1 U1
        (fun a b c => False_ind _ (NB eq_refl a b c))) as G1.
      destruct (hm_calc_pot_rhs h x1 b r1 ru xz ru) as [[r2 rhs] up]. destruct G1 as (-> & L2 & U2 & _).
      assert (HR : length (residual (hm_A h) b x1) = n) by (unfold residual; auto with len).
      pose proof (hm_pot_sol n m h Apot Cp Cr true (hm_DT h (residual (hm_A h) b x1)) H ltac:(auto with len)) as G2.
      destruct (hm_pot h true _ _ _ _ _ _) as [sol rp]. simpl in G2. subst sol.
      set (u := Cp true (hm_DT h (residual (hm_A h) b x1))). assert (Hu : length u = m) by (unfold u; auto with len).
      pose proof (hm_apply_ok n m h Apot Cp Cr x1 b r2 up ur u H Lx1 Hb L2 Hu U2) as G3.
      destruct (hm_apply_pot_update h x1 u b r2 up ur) as [[x2 r3] up2]. destruct G3 as (E2 & L3 & -> & U3).
      repeat split; auto. rewrite E2. unfold u. rewrite E1. apply (then_step L n (hm_A h) (Cr true) (pot_corr h (Cp true))); auto.
    - pose proof (hm_pot_rhs_ok n m h Apot Cp Cr x b res ru xz H Hx Hb Hres Hr (fun a _ _ => Hz a)) as G1.
      destruct (hm_calc_pot_rhs h x b res ru xz ru) as [[r1 rhs] up]. destruct G1 as (-> & L1 & U1 & _).
      assert (HR : length (residual (hm_A h) b x) = n) by (unfold residual; auto with len).
      pose proof (hm_pot_sol n m h Apot Cp Cr true (hm_DT h (residual (hm_A h) b x)) H ltac:(auto with len)) as G2.
      destruct (hm_pot h true _ _ _ _ _ _) as [sol rp]. simpl in G2. subst sol.
      set (u := Cp true (hm_DT h (residual (hm_A h) b x))). assert (Hu : length u = m) by (unfold u; auto with len).
      pose proof (hm_apply_ok n m h Apot Cp Cr x b r1 up up u H Hx Hb L1 Hu U1) as G3.
      destruct (hm_apply_pot_update h x u b r1 up up) as [[x2 r2] up2]. destruct G3 as (E2 & L2 & -> & U2).
      assert (Hx2 : length x2 = n) by (rewrite E2; auto with len).
      assert (F2 : flags_ok n (hm_A h) x2 b r2 up false) by (repeat split; auto; discriminate).
      pose proof (ho_range _ _ _ _ _ _ H true x2 b r2 up ur false F2) as G4.
      destruct (hm_range h true x2 b r2 up ur false) as [x3 r3]. destruct G4 as (E3 & L3 & U3).
      repeat split; auto. rewrite E3, E2. apply (then_step L n (hm_A h) (pot_corr h (Cp true)) (Cr true)); auto.
  Qed.

  Lemma hm_adj n m h Apot Cp Cr : hm_ok n m h Apot Cp Cr -> adj n n (hm_A h) (hm_A h) -> adj m n (hm_D h) (hm_DT h) ->
    adj m m (Cp false) (Cp true) -> adj n n (Cr false) (Cr true) ->
    adj n n (hm_C h Cp Cr false) (hm_C h Cp Cr true).
  Proof.
    intros H HA HD Hp Hr. unfold hm_C.
    pose proof (ho_A _ _ _ _ _ _ H) as AL. pose proof (ho_D _ _ _ _ _ _ H) as DL. pose proof (ho_DT _ _ _ _ _ _ H) as DTL.
    pose proof (fun bk => ho_Cp _ _ _ _ _ _ H bk) as CpL. pose proof (fun bk => ho_Cr _ _ _ _ _ _ H bk) as CrL.
    pose proof (fun bk => pot_corr_lin n m h Apot Cp Cr bk H) as PL.
    assert (PA : adj n n (pot_corr h (Cp false)) (pot_corr h (Cp true))).
    { intros x y Hx Hy. unfold pot_corr. pose proof (CpL false). pose proof (CpL true).
      rewrite HD by auto with len. rewrite Hp by auto with len.
      rewrite (vdot_comm L), <- HD by auto with len. apply (vdot_comm L). }
    destruct (hm_potfirst h); cbn [Bool.eqb]; apply (adj_then L n); auto.
  Qed.
End Comb.
