From Verif Require Import Base AGroup ArraysModel ArraysProofs ArraysProofs2 LinAlg LinTools GSSpec GSModel GSProofs SparseModel BlockModel EQCModel CtrModel BlockProofs BlockProofs2 CtrProofs CtrProofs2 AggMapProofs HybMatProofs DynModel DynProofs DynProofs2 DynProofs3 DynProofs4 DynProofs5 DynProofs6.
Open Scope nat_scope.

(** G is the inverse of the m x m block matrix F *)
Definition inverts {B : Blk} (m : nat) (F G : @dense B) : Prop :=
  forall h, length h = m -> dmul F (dmul G h) = h /\ dmul G (dmul F h) = h.

Section Inv.
  Context {B : Blk} (L : BlkLaws B).
  Notation vec := (list (X B)).
  Let LX := lawX B L.
  Variables (m1 : M B) (A : @spmat B) (fd : option (list bool)) (md : list (M B)) (b : list nat) (G : @dense B).
  Hypothesis H1 : forall x, act m1 x = x.
  Notation m := (length b).
  Notation F := (fix_block m1 A fd md b).
  Hypothesis DG : dims m G.
  Hypothesis I : inverts m F G.
  Notation fr i := (is_free fd (nth i b 0)).
  Lemma act_x0 (a : M B) : act a x0 = x0.
  Proof. rewrite <- (xsc_k0 L x0) at 1. rewrite (act_sc B L). apply (xsc_k0 L). Qed.
  Lemma F_ent i j : i < m -> j < m -> dent F i j = if fr i && fr j then (if (i =? j) && negb (length md =? 0) then nth (nth i b 0) md m0 else stored A (nth i b 0) (nth j b 0)) else if i =? j then m1 else m0.
  Proof. intros Hi Hj. unfold fix_block. now rewrite sq_ent. Qed.
  (** sums with at most one non-zero term *)
  Lemma xsum_zf n (f : nat -> X B) : (forall j, j < n -> f j = x0) -> xsum n f = x0.
  Proof. intros H. rewrite (xsum_ext n f (fun _ => x0)) by auto. apply (xsum_zero L). Qed.
  Lemma xsum_one n i (f : nat -> X B) : i < n -> (forall j, j < n -> j <> i -> f j = x0) -> xsum n f = f i.
  Proof.
    revert f. induction n as [|n IH]; intros f Hi H; [lia|]. rewrite (xsum_S L). destruct (Nat.eq_dec i n) as [->|N].
    - rewrite xsum_zf. ag LX. intros j Hj. apply H; lia.
    - rewrite IH by (try lia; intros; apply H; lia). rewrite (H n) by lia. ag LX.
  Qed.
  Lemma con_row i (h : vec) : i < m -> fr i = false -> length h = m -> ent (dmul G h) i = ent h i.
  Proof.
    intros Hi Hf Hh. destruct (I h Hh) as [E _]. pose proof (lin_len _ _ _ (dmul_lin L _ _ DG) h Hh) as LG.
    rewrite <- E at 2. rewrite (ent_dmul L m F) by (auto; apply fix_dims). rewrite (xsum_one m i) by (auto; intros j Hj N; rewrite F_ent by auto; rewrite Hf; cbn [andb]; destruct (Nat.eqb_spec i j); first [congruence|apply (act_m0 B L)]).
    rewrite F_ent by auto. rewrite Hf, Nat.eqb_refl. cbn [andb]. now rewrite H1.
  Qed.
  Lemma zb_dims : dims m (zero_bad fd b G). Proof. apply dmap_dims. auto. Qed.
  Lemma zb_ent i j : i < m -> j < m -> dent (zero_bad fd b G) i j = if (i =? j) && negb (fr i) then m0 else dent G i j.
  Proof. intros. unfold zero_bad. now rewrite (dmap_ent m). Qed.
  Lemma zb_con i (h : vec) : i < m -> fr i = false -> length h = m -> ent (dmul (zero_bad fd b G) h) i = x0.
  Proof.
    intros Hi Hf Hh. rewrite (ent_dmul L m) by (auto using zb_dims).
    assert (E := con_row i (upd h i x0) Hi Hf ltac:(now rewrite upd_length)). rewrite (ent_dmul L m) in E by (auto; now rewrite upd_length).
    unfold ent in E at 2. rewrite nth_upd_eq in E by lia. etransitivity; [|exact E]. apply xsum_ext. intros j Hj. rewrite zb_ent by auto. rewrite Hf. cbn [negb]. rewrite andb_true_r.
    unfold ent at 2. destruct (Nat.eqb_spec i j).
    - subst j. rewrite nth_upd_eq by lia. now rewrite (act_m0 B L), act_x0.
    - now rewrite nth_upd_neq by auto.
  Qed.
  Lemma zb_free (h : vec) i : length h = m -> (forall j, j < m -> fr j = true -> ent h j = x0) -> i < m -> fr i = true -> ent (dmul (zero_bad fd b G) h) i = x0.
  Proof.
    intros Hh Hz Hi Hf. assert (EF : dmul F h = h).
    { apply (vec_ext m); auto. apply (lin_len _ _ _ (dmul_lin L _ _ (fix_dims m1 A fd md b))); auto. intros j Hj. rewrite (ent_dmul L m) by (auto; apply fix_dims). destruct (fr j) eqn:Ej.
      - rewrite Hz by auto. apply xsum_zf. intros k Hk. rewrite F_ent by auto. rewrite Ej. cbn [andb]. destruct (fr k) eqn:Ek. rewrite (Hz k) by auto. apply act_x0.
        destruct (Nat.eqb_spec j k). congruence. apply (act_m0 B L).
      - rewrite (xsum_one m j) by (auto; intros k Hk N; rewrite F_ent by auto; rewrite Ej; cbn [andb]; destruct (Nat.eqb_spec j k); first [congruence|apply (act_m0 B L)]).
        rewrite F_ent by auto. rewrite Ej, Nat.eqb_refl. cbn [andb]. apply H1. }
    destruct (I h Hh) as [_ E]. rewrite EF in E.
    rewrite <- (Hz i Hi Hf). rewrite <- E at 2. rewrite !(ent_dmul L m) by (auto using zb_dims). apply xsum_ext. intros j Hj. rewrite zb_ent by auto. rewrite Hf. cbn [negb]. now rewrite andb_false_r.
  Qed.
  Lemma zb_zero (h : vec) : length h = m -> (forall j, j < m -> fr j = true -> ent h j = x0) -> dmul (zero_bad fd b G) h = vzero m.
  Proof.
    intros Hh Hz. apply (vec_ext m); auto with len. apply (lin_len _ _ _ (dmul_lin L _ _ zb_dims)); auto. intros i Hi. rewrite ent_vzero.
    destruct (fr i) eqn:E. now apply zb_free. now apply zb_con.
  Qed.
End Inv.
Section InvSym.
  Context {B : Blk} (L : BlkLaws B).
  Variables (m1 : M B) (A : @spmat B) (fd : option (list bool)) (md : list (M B)) (b : list nat).
  Lemma fix_sym : (forall i j, stored A j i = mtr (stored A i j)) -> mtr m1 = m1 -> (forall r, mtr (nth r md m0) = nth r md m0) ->
    dsym (length b) (fix_block m1 A fd md b).
  Proof.
    intros Hs Hm Hd i j Hi Hj. rewrite !(F_ent m1 A fd md b) by auto. rewrite (andb_comm (is_free fd (nth j b 0))). rewrite (Nat.eqb_sym j i).
    destruct (_ && _). destruct (Nat.eqb_spec i j); cbn [andb]. subst. destruct (negb _); auto. apply Hs. destruct (i =? j). auto. now rewrite (mtr_m0 B L).
  Qed.
  Lemma zb_sym (G : @dense B) : dims (length b) G -> dsym (length b) G -> dsym (length b) (zero_bad fd b G).
  Proof.
    intros DG Hs i j Hi Hj. rewrite !(zb_ent fd b G DG) by auto. rewrite (Nat.eqb_sym j i). destruct (Nat.eqb_spec i j); cbn [andb]. subst. destruct (negb _). now rewrite (mtr_m0 B L). now apply Hs. now apply Hs.
  Qed.
End InvSym.

Section Made.
  Context {B : Blk} (L : BlkLaws B).
  Notation vec := (list (X B)).
  Variables (minv : @dense B -> @dense B) (m1 : M B).
  Hypothesis Hsz : forall m D, dims m D -> dims m (minv D).
  Variables (A : @spmat B) (D : dyn B) (bl pt : list (list nat)).
  Hypothesis R : rep A D bl pt.
  Notation n := (length A).
  Hypothesis Sorted : forall r, StronglySorted lt (rcols (getrow A r)).
  Hypothesis Cols : forall r c, In c (rcols (getrow A r)) -> c < n.
  Hypothesis HS : sym_storage A.
  Variables (fd : option (list bool)) (md : list (M B)).
  Hypothesis Hfd : match fd with None => True | Some f => length f = n end.
  Hypothesis Hmd : md = [] \/ length md = n.
  Hypothesis Hdiag : forall r, r < n -> In r (rcols (getrow A r)) \/ (rcols (getrow A r) = [] /\ fd <> None).
  Variable om : K B.
  Notation blk k := (nth k bl []).
  Notation br := (blk_res minv m1 A bl pt fd md).
  Definition dsl : list (@dense B) := map (fun k => fst (br k)) (seq 0 (length bl)).
  Definition frl : option (list bool) := match fd with None => None | Some _ => Some (map (fun k => snd (br k)) (seq 0 (length bl))) end.
  Notation St := (mkDsm D dsl frl om).
  Lemma made : DynBlockSmoother minv m1 D fd md om = Ret St.
  Proof.
    apply smoother_ok; auto. intros r Hr. destruct (Hdiag r Hr) as [H|[H _]]; auto.
  Qed.
  Lemma dsl_nth k : k < length bl -> nth k dsl [] = fst (br k).
  Proof. intros H. unfold dsl. rewrite nth_indep with (d' := fst (br 0)) by now rewrite map_length, seq_length. rewrite (map_nth (fun k => fst (br k))). now rewrite seq_nth. Qed.
  (** the diagonal block of a visited block *)
  Lemma visited back k : In k (dsm_order St back) -> k < length bl /\ nth k pt [] <> [] /\
    nth k dsl [] = zero_bad fd (blk k) (minv (fix_block m1 A fd md (blk k))) .
  Proof.
    unfold dsm_order. cbn [s_A s_free]. rewrite (r_num _ _ _ _ R). intros H. apply filter_In in H as [H1 H2]. apply in_map_iff in H1 as (j & Ej & Hj). apply in_seq in Hj.
    assert (Hk : k < length bl) by (destruct back; lia). rewrite dsl_nth by auto.
    assert (Hp : fd = None -> nth k pt [] <> []).
    { intros E. destruct (blk k) as [|r l] eqn:Eb. now apply (r_ne _ _ _ _ R) in Eb. assert (Hr : In r (blk k)) by (rewrite Eb; now left).
      rewrite <- (r_pat _ _ _ _ R k r Hk Hr). destruct (Hdiag r). eapply bl_lt; eauto. intros X. now rewrite X in H. tauto. }
    unfold frl in H2. destruct fd as [f|] eqn:Efd.
    - set (b0 := blk_res minv m1 A bl pt (Some f) md) in *. rewrite nth_indep with (d' := snd (b0 0)) in H2 by now rewrite map_length, seq_length. rewrite (map_nth (fun k => snd (b0 k))), seq_nth in H2 by auto. cbn [plus] in H2. subst b0.
      unfold blk_res in *. cbv zeta in *. destruct (Nat.eqb_spec (length (nth k pt [])) 0); [discriminate|]. destruct (existsb _ _); [|discriminate].
      split; auto. split; auto. intros X. rewrite X in n. cbn in n. congruence.
    - split; auto. split; auto. unfold blk_res. cbv zeta. destruct (Nat.eqb_spec (length (nth k pt [])) 0) as [Z|Z]. apply length_zero_iff_nil in Z. now destruct (Hp eq_refl).
      cbn [fst]. apply (dense_ext (length (blk k))). apply Hsz, fix_dims. apply dmap_dims, Hsz, fix_dims. intros i j0 Hi Hj0. rewrite (zb_ent None (blk k)) by (auto; apply Hsz, fix_dims). cbn [is_free negb]. now rewrite andb_false_r.
  Qed.
  Lemma visited_usable back k : In k (dsm_order St back) -> usable bl pt dsl k.
  Proof.
    intros H. destruct (visited back k H) as (H1 & H2 & H3). unfold usable. split; auto. split. unfold dsl. now rewrite map_length, seq_length. split; auto. rewrite H3. apply dmap_dims, Hsz, fix_dims.
  Qed.
  Lemma seq_rev_map m : map (fun k => m - 1 - k) (seq 0 m) = rev (seq 0 m).
  Proof.
    induction m as [|m IH]; auto. rewrite seq_S at 2. rewrite rev_app_distr. cbn [plus rev app]. cbn [seq map]. f_equal. lia. rewrite <- IH, <- seq_shift, map_map. apply map_ext. intros; lia.
  Qed.
  Lemma filter_rev {T} (p : T -> bool) l : filter p (rev l) = rev (filter p l).
  Proof. induction l as [|a l IH]; cbn; auto. rewrite filter_app, IH. cbn. destruct (p a); cbn; auto. now rewrite app_nil_r. Qed.
  Lemma order_rev : dsm_order St true = rev (dsm_order St false).
  Proof. unfold dsm_order. rewrite seq_rev_map, map_id. apply filter_rev. Qed.
  Lemma nd_blk k : k < length bl -> NoDup (blk k). Proof. intros. apply ss_lt_nd. now apply (r_ss _ _ _ _ R). Qed.
  Hypothesis Hcl : forall k r, k < length bl -> In r (blk k) -> blk k = pclass A r.

  Section Exact.
    Hypothesis H1 : forall x, act m1 x = x.
    Hypothesis HI : forall r, r < n -> inverts (length (pclass A r)) (fix_block m1 A fd md (pclass A r)) (minv (fix_block m1 A fd md (pclass A r))).
    Lemma blk_inv k : k < length bl -> inverts (length (blk k)) (fix_block m1 A fd md (blk k)) (minv (fix_block m1 A fd md (blk k))).
    Proof.
      intros Hk. destruct (blk k) as [|r l] eqn:Eb. now apply (r_ne _ _ _ _ R) in Eb. assert (Hr : In r (blk k)) by (rewrite Eb; now left).
      rewrite <- Eb. rewrite (Hcl k r Hk Hr). apply HI. eapply bl_lt; eauto.
    Qed.
    Lemma con_untouched back j r : j < n -> is_free fd j = false -> length r = n -> ent (op A bl dsl om (dsm_order St back) r) j = x0.
    Proof.
      intros Hj Hf Hr. apply (op_ent L A D bl pt R Cols dsl om); auto. intros k Hk. now apply (visited_usable back).
      intros k h i Hk Hi Ei Hh. destruct (visited back k Hk) as (K1 & K2 & K3). rewrite K3. eapply (zb_con L m1 A fd md (blk k)); eauto using blk_inv; try now rewrite Ei. apply Hsz, fix_dims.
    Qed.
    Lemma fixed_point back r : length r = n -> (forall i, i < n -> is_free fd i = true -> ent r i = x0) -> op A bl dsl om (dsm_order St back) r = vzero n.
    Proof.
      intros Hr Hz. pose proof (matvec_lin L n n A (wfA A Cols)) as AL. unfold op. apply (seq_op_zero L); auto.
      - apply (cor_lins L A bl pt dsl om). intros k Hk. now apply (visited_usable back).
      - intros C HC. apply in_map_iff in HC as (k & <- & Hk). destruct (visited back k Hk) as (K1 & K2 & K3). unfold dcor. rewrite K3.
        rewrite (zb_zero L m1 A fd md (blk k)); auto.
        + assert (E : vsc om (vzero (length (blk k))) = @vzero B (length (blk k))) by (vx L (length (blk k)); apply (xsc_0 L)). rewrite E.
          apply (lin_zero L (length (blk k)) n (fun up => scatter (blk k) up (vzero n))). now apply (scatter_lin L).
        + apply Hsz, fix_dims.
        + now apply blk_inv.
        + apply gather_length.
        + intros j Hj Hf. unfold gather, ent at 1. rewrite nth_indep with (d' := ent r 0) by now rewrite map_length. rewrite map_nth. apply Hz; auto. eapply bl_lt; eauto. now apply nth_In.
    Qed.
  End Exact.

  Lemma op_adj : mtr m1 = m1 -> (forall r, mtr (nth r md m0) = nth r md m0) -> (forall m F, dims m F -> dsym m F -> dsym m (minv F)) ->
    adj n n (op A bl dsl om (dsm_order St false)) (op A bl dsl om (dsm_order St true)).
  Proof.
    intros M1 Md Ms. pose proof (matvec_lin L n n A (wfA A Cols)) as AL. unfold op. rewrite order_rev, map_rev.
    assert (U : forall k, In k (dsm_order St false) -> usable bl pt dsl k) by (intros k; apply visited_usable).
    assert (CL := cor_lins L A bl pt dsl om _ U).
    apply (seq_op_adj L); auto.
    - intros u v Hu Hv. apply (matvec_self_adjoint L n); auto using wfA. apply (storage_sym_mat L); auto.
    - assert (G : forall ks, (forall k, In k ks -> In k (dsm_order St false)) -> Forall2 (adj n n) (map (dcor A bl dsl om) ks) (map (dcor A bl dsl om) ks)).
      { induction ks as [|k ks IH]; intros H; cbn [map]; constructor. 2: apply IH; intros; apply H; now right.
        destruct (visited false k) as (K1 & K2 & K3). apply H; now left. apply (dcor_adj L A D bl pt R); auto; rewrite K3.
        apply dmap_dims, Hsz, fix_dims. apply (zb_sym L). apply Hsz, fix_dims. apply Ms. apply fix_dims. apply (fix_sym L); auto. now apply stored_sym. }
      apply G; auto.
  Qed.
End Made.
