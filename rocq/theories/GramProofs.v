From Verif Require Import Base GramModel GramSpec.
From Coq Require Import Lia Reals Lra.
Local Open Scope R_scope.

Lemma total_ext a b n : (forall i, (i < n)%nat -> a i = b i) -> total a n = total b n.
Proof. induction n as [|n IH]; intros H; cbn; auto. rewrite IH, H; auto. Qed.
Lemma total_lin a b c n : total (fun i => a i + c * b i) n = total a n + c * total b n.
Proof. induction n as [|n IH]; cbn. ring. rewrite IH. ring. Qed.
Lemma total_zero a n : (forall i, (i < n)%nat -> a i = 0) -> total a n = 0.
Proof. induction n as [|n IH]; intros H; cbn; auto. rewrite IH, H; auto. ring. Qed.
Lemma total_left a n : total a (S n) = a O + total (fun i => a (S i)) n.
Proof. induction n as [|n IH]. cbn. ring. change (total a (S (S n))) with (total a (S n) + a (S n)). rewrite IH. cbn. ring. Qed.
Lemma total_nonneg a n : (forall i, (i < n)%nat -> 0 <= a i) -> 0 <= total a n.
Proof. induction n as [|n IH]; intros H; cbn. lra. pose proof (H n ltac:(lia)). assert (0 <= total a n) by (apply IH; auto). lra. Qed.
Lemma dot_product n : forall x y, length x = n -> length y = n -> dot x y = product n x y.
Proof.
  unfold dot, product. induction n as [|n IH]; intros [|x xs] [|y ys] Hx Hy; cbn in Hx, Hy; try lia; auto.
  rewrite total_left. cbn [combine map fold_right fst snd nth]. rewrite IH by lia. reflexivity.
Qed.
Lemma norm_size n x : length x = n -> norm x = size n x.
Proof. intros H. unfold norm, size. now rewrite (dot_product n). Qed.
Lemma product_sym n x y : product n x y = product n y x.
Proof. apply total_ext. intros. ring. Qed.
Lemma product_ext n x x' y : (forall i, (i < n)%nat -> nth i x 0 = nth i x' 0) -> product n x y = product n x' y.
Proof. intros H. apply total_ext. intros i Hi. now rewrite H. Qed.
Lemma product_self n x : 0 <= product n x x.
Proof. apply total_nonneg. intros. apply Rle_0_sqr. Qed.
Lemma size_nonneg n x : 0 <= size n x.
Proof. apply sqrt_pos. Qed.
Lemma size_sqr n x : size n x * size n x = product n x x.
Proof. apply sqrt_def, product_self. Qed.
Lemma sub_length n p a q : length p = n -> length q = n -> length (sub_scaled p a q) = n.
Proof. intros H1 H2. unfold sub_scaled. rewrite map_length, combine_length. lia. Qed.
Lemma sub_nth n : forall p a q i, length p = n -> length q = n -> nth i (sub_scaled p a q) 0 = nth i p 0 - a * nth i q 0.
Proof.
  unfold sub_scaled. induction n as [|n IH]; intros [|x p] a [|y q] i H1 H2; cbn in H1, H2; try lia.
  destruct i; cbn; ring. destruct i as [|i]; cbn. ring. apply IH; lia.
Qed.
Lemma scale_nth a : forall p i, nth i (scale a p) 0 = a * nth i p 0.
Proof. unfold scale. induction p as [|x p IH]; intros [|i]; cbn; auto; ring. Qed.
Lemma scale_length a p : length (scale a p) = length p.
Proof. apply map_length. Qed.
Lemma product_sub n p a q z : length p = n -> length q = n -> product n (sub_scaled p a q) z = product n p z - a * product n q z.
Proof.
  intros H1 H2. unfold product. replace (total (fun i => nth i p 0 * nth i z 0) n - a * total (fun i => nth i q 0 * nth i z 0) n) with (total (fun i => nth i p 0 * nth i z 0) n + (- a) * total (fun i => nth i q 0 * nth i z 0) n) by ring.
  rewrite <- total_lin. apply total_ext. intros i Hi. rewrite (sub_nth n) by auto. ring.
Qed.
Lemma product_scale n a p z : product n (scale a p) z = a * product n p z.
Proof. unfold product. replace (a * total (fun i => nth i p 0 * nth i z 0) n) with (total (fun i => 0) n + a * total (fun i => nth i p 0 * nth i z 0) n). rewrite <- total_lin. apply total_ext. intros i Hi. rewrite scale_nth. ring. rewrite total_zero by auto. ring. Qed.
Lemma vec_eq n (p q : list R) : length p = n -> length q = n -> (forall i, (i < n)%nat -> nth i p 0 = nth i q 0) -> p = q.
Proof. intros H1 H2 H. apply (nth_ext_len _ _ 0); try congruence. intros i Hi. apply H. lia. Qed.

(** the linear combination of the first m columns of P with coefficients w *)
Definition comb (m : nat) (P : list (list R)) (w : list R) (i : nat) : R := total (fun j => entry P i j * nth j w 0) m.
Lemma comb_upd m P w t x i : (t < m)%nat -> (t < length w)%nat -> comb m P (upd w t x) i = comb m P w i + entry P i t * (x - nth t w 0).
Proof.
  unfold comb. induction m as [|m IH]; intros H L. lia. cbn. destruct (Nat.eq_dec t m) as [->|N].
  - rewrite nth_upd_eq by auto. rewrite (total_ext _ (fun j => entry P i j * nth j w 0)). ring. intros j Hj. rewrite nth_upd_neq by lia. auto.
  - rewrite IH by lia. rewrite nth_upd_neq by lia. ring.
Qed.
Lemma comb_ext m P P' w w' i : (forall j, (j < m)%nat -> entry P i j = entry P' i j /\ nth j w 0 = nth j w' 0) -> comb m P w i = comb m P' w' i.
Proof. intros H. apply total_ext. intros j Hj. destruct (H j Hj) as (-> & ->). auto. Qed.
Lemma comb_more m P w i m' : (m <= m')%nat -> (forall j, (m <= j)%nat -> nth j w 0 = 0) -> comb m' P w i = comb m P w i.
Proof. intros L Z. induction L as [|m' L IH]; auto. unfold comb in *. cbn. rewrite IH, Z by lia. ring. Qed.

(** ** orthogonalisation against the first nv columns *)
Section Orth.
Context (n nPres nv : nat) (P : list (list R)) (sq : list R).
Context (HP : (nv <= length P)%nat) (HPn : forall j, (j < nv)%nat -> length (nth j P []) = n) (Hs : length sq = nPres) (HnP : (nPres <= nv)%nat).
Lemma orth_all add st : orth add nPres sq P nv st = foldM (orth_one add nPres sq P) (seq 0 nv) st.
Proof. unfold orth. rewrite <- foldM_app. f_equal. replace nv with (nPres + (nv - nPres))%nat at 2 by lia. rewrite seq_app. reflexivity. Qed.
Definition fac_of (p : list R) (ll : nat) : R := if (ll <? nPres)%nat then dot p (nth ll P []) / nth ll sq 0 else dot p (nth ll P []).
Lemma orth_one_eq add p w ll : (ll < nv)%nat -> (nv <= length w)%nat ->
  orth_one add nPres sq P (p, w) ll = Ret (sub_scaled p (fac_of p ll) (nth ll P []), upd w ll (if add then nth ll w 0 + fac_of p ll else fac_of p ll)).
Proof.
  intros H L. unfold orth_one, fac_of. rewrite (rd_ok P ll []) by lia. cbn [bind]. destruct (Nat.ltb_spec ll nPres).
  - rewrite (rd_ok sq ll 0) by lia. cbn [bind]. rewrite (rd_ok w ll 0) by lia. cbn [bind]. rewrite wr_ok by lia. reflexivity.
  - cbn [bind]. rewrite (rd_ok w ll 0) by lia. cbn [bind]. rewrite wr_ok by lia. reflexivity.
Qed.
Definition basis : Prop := (forall l, (l < nPres)%nat -> nth l sq 0 = product n (nth l P []) (nth l P []) /\ nth l sq 0 <> 0) /\ (forall l, (nPres <= l < nv)%nat -> product n (nth l P []) (nth l P []) = 1) /\ orthogonal n nv P.
Lemma orth_ok add p w : length p = n -> (nv <= length w)%nat ->
  exists p' w', orth add nPres sq P nv (p, w) = Ret (p', w') /\ length p' = n /\ length w' = length w /\ (forall j, (nv <= j)%nat -> nth j w' 0 = nth j w 0) /\
    (forall i, (i < n)%nat -> nth i p' 0 + comb nv P w' i = nth i p 0 + (if add then comb nv P w i else 0)) /\
    (basis -> forall j, (j < nv)%nat -> product n p' (nth j P []) = 0).
Proof.
  intros Lp Lw. rewrite orth_all.
  assert (G : forall t, (t <= nv)%nat -> exists p' w', foldM (orth_one add nPres sq P) (seq 0 t) (p, w) = Ret (p', w') /\ length p' = n /\ length w' = length w /\ (forall j, (t <= j)%nat -> nth j w' 0 = nth j w 0) /\
    (forall i, (i < n)%nat -> nth i p' 0 + (if add then comb nv P w' i else comb t P w' i) = nth i p 0 + (if add then comb nv P w i else 0)) /\
    (basis -> forall j, (j < t)%nat -> product n p' (nth j P []) = 0)).
  { induction t as [|t IH]; intros Ht.
    - exists p, w. split; auto. split; auto. split; auto. split; auto. split. intros i Hi. destruct add; auto. intros; lia.
    - destruct (IH ltac:(lia)) as (p' & w' & E & L1 & L2 & A & I & O). rewrite seq_S, foldM_app, E. cbn [bind foldM plus]. rewrite orth_one_eq by lia. cbn [bind].
      set (F := fac_of p' t). exists (sub_scaled p' F (nth t P [])), (upd w' t (if add then nth t w' 0 + F else F)). split; auto. split. { apply sub_length; try (apply HPn; lia); auto. } split. now rewrite upd_length. split.
      { intros j Hj. rewrite nth_upd_neq by lia. apply A. lia. } split.
      + intros i Hi. rewrite <- I by auto. rewrite (sub_nth n) by (first [apply HPn; lia | auto]). destruct add.
        * rewrite comb_upd by lia. unfold entry. ring.
        * unfold comb. cbn. rewrite nth_upd_eq by lia. rewrite (total_ext (fun j => entry P i j * nth j (upd w' t F) 0) (fun j => entry P i j * nth j w' 0)). unfold entry. ring. intros j Hj. rewrite nth_upd_neq by lia. auto.
      + intros B j Hj. rewrite product_sub by (first [apply HPn; lia | auto]). destruct (Nat.eq_dec j t) as [->|N].
        * destruct B as (B1 & B2 & B3). unfold F, fac_of. rewrite (dot_product n) by (first [apply HPn; lia | auto]). destruct (Nat.ltb_spec t nPres).
          -- destruct (B1 t ltac:(lia)) as (-> & NZ). field. destruct (B1 t ltac:(lia)) as (Q & _). congruence.
          -- rewrite B2 by lia. ring.
        * rewrite O by (auto; lia). destruct B as (B1 & B2 & B3). unfold orthogonal, col in B3. rewrite B3 by lia. ring. }
  destruct (G nv (Nat.le_refl nv)) as (p' & w' & E & L1 & L2 & A & I & O). exists p', w'. split; auto. split; auto. split; auto. split; auto. split; auto. intros i Hi. rewrite <- I by auto. destruct add; auto.
Qed.
(** a vector that is orthogonal to the columns stays as it is *)
Lemma orth_idle p w : length p = n -> (nv <= length w)%nat -> (forall j, (j < nv)%nat -> product n p (nth j P []) = 0) -> orth true nPres sq P nv (p, w) = Ret (p, w).
Proof.
  intros Lp Lw O. rewrite orth_all.
  assert (G : forall t, (t <= nv)%nat -> foldM (orth_one true nPres sq P) (seq 0 t) (p, w) = Ret (p, w)).
  { induction t as [|t IH]; intros Ht. reflexivity. rewrite seq_S, foldM_app, IH by lia. cbn [bind foldM plus]. rewrite orth_one_eq by lia. cbn [bind].
    assert (F : fac_of p t = 0). { unfold fac_of. rewrite (dot_product n) by (first [apply HPn; lia | auto]). rewrite O by lia. destruct (t <? nPres)%nat; unfold Rdiv; ring. } rewrite F. f_equal. f_equal.
    - apply (vec_eq n); auto. apply sub_length; try (apply HPn; lia); auto. intros i Hi. rewrite (sub_nth n) by (first [apply HPn; lia | auto]). ring.
    - rewrite Rplus_0_r. apply (nth_ext_len _ _ 0). apply upd_length. intros i Hi. rewrite upd_length in Hi. destruct (Nat.eq_dec i t) as [->|N]. apply nth_upd_eq; auto. apply nth_upd_neq; auto. }
  apply G. lia.
Qed.
End Orth.

(** ** one column *)
Lemma tol_pos : 0 < upperTol /\ 0 < lowerTol /\ lowerTol <= upperTol * upperTol /\ upperTol < 1 /\ lowerTol < upperTol.
Proof. unfold upperTol, lowerTol. lra. Qed.
Section Col.
Context (n k m nPres : nat) (P : list (list R)) (sq v : list R).
Context (HP : length P = k) (HPn : forall j, (j < m)%nat -> length (nth j P []) = n) (Hs : length sq = nPres) (HnP : (nPres <= m)%nat) (Hm : (m < k)%nat) (Lv : length v = n).
Local Notation Basis := (basis n nPres m P sq).
Definition split (w p : list R) : Prop := length p = n /\ length w = k /\ (forall j, (m <= j)%nat -> nth j w 0 = 0) /\ forall i, (i < n)%nat -> nth i v 0 = comb m P w i + nth i p 0.
Definition taken (res : nat * list (list R) * list R) : Prop := exists p w c, split w p /\ 0 < c /\ lowerTol * size n v < c /\ res = (S m, upd P m (scale (1 / c) p), upd w m c) /\ (Basis -> size n p = c /\ forall j, (j < m)%nat -> product n p (nth j P []) = 0).
Definition left_out (res : nat * list (list R) * list R) : Prop := exists p w, split w p /\ res = (m, P, w) /\ size n p <= upperTol * upperTol * size n v /\ (Basis -> size n p <= lowerTol * size n v).
Lemma use_ok c p w : length w = k -> use_col c p w m P = Ret (S m, upd P m (scale (1 / c) p), upd w m c).
Proof. intros L. unfold use_col. rewrite wr_ok by lia. cbn [bind]. rewrite wr_ok by lia. reflexivity. Qed.
Lemma tries_ok c : 0 < c -> lowerTol * size n v < c -> c <= upperTol * size n v -> forall t p w, split w p -> (Basis -> size n p = c /\ forall j, (j < m)%nat -> product n p (nth j P []) = 0) ->
  exists r, tries (S t) nPres sq m c p w m P = Ret r /\ (taken r \/ left_out r).
Proof.
  intros Hc Hl Hu. pose proof tol_pos as (T1 & T2 & T3 & T4 & T5). assert (SV := size_nonneg n v).
  assert (G : forall p w, split w p -> (Basis -> size n p = c /\ forall j, (j < m)%nat -> product n p (nth j P []) = 0) ->
    exists p' w', orth true nPres sq P m (p, w) = Ret (p', w') /\ split w' p' /\ (Basis -> p' = p)).
  { intros p w (S1 & S2 & S3 & S4) B. destruct (orth_ok n nPres m P sq ltac:(lia) HPn Hs HnP true p w S1 ltac:(lia)) as (p' & w' & E & L1 & L2 & A & I & _). exists p', w'. split; auto. split.
    - split; auto. split. lia. split. intros j Hj. rewrite A by auto. now apply S3. intros i Hi. rewrite S4 by auto. specialize (I i Hi). lra.
    - intros Bs. destruct (B Bs) as (_ & O). rewrite (orth_idle n nPres m P sq) in E by (auto; lia). now injection E. }
  induction t as [|t IH]; intros p w Sp B; destruct (G p w Sp B) as (p' & w' & E & Sp' & Q); destruct (Sp') as (L1 & L2 & _).
  - cbn [tries]. rewrite E. cbn [bind]. rewrite !(norm_size n) by auto. destruct (Rgt_dec (size n p') (upperTol * c)) as [D|D].
    + rewrite use_ok by auto. eexists. split. reflexivity. left. exists p', w', c. split; auto. split; auto. split; auto. split; auto. intros Bs. rewrite (Q Bs). auto.
    + assert (NB : ~ Basis). { intros Bs. rewrite (Q Bs) in D. destruct (B Bs) as (E0 & _). rewrite E0 in D. apply D. nra. }
      destruct (Rlt_dec (size n p') (lowerTol * c)) as [D2|D2]; eexists; (split; [reflexivity|]); right; exists p', w'; (split; [auto|]); (split; [auto|]); (split; [|tauto]); nra.
  - remember (S t) as t' eqn:Et. cbn [tries]. rewrite E. cbn [bind]. rewrite !(norm_size n) by auto. destruct (Rgt_dec (size n p') (upperTol * c)) as [D|D].
    + rewrite use_ok by auto. eexists. split. reflexivity. left. exists p', w', c. split; auto. split; auto. split; auto. split; auto. intros Bs. rewrite (Q Bs). auto.
    + assert (NB : ~ Basis). { intros Bs. rewrite (Q Bs) in D. destruct (B Bs) as (E0 & _). rewrite E0 in D. apply D. nra. }
      destruct (Rlt_dec (size n p') (lowerTol * c)) as [D2|D2].
      * eexists. split. reflexivity. right. exists p', w'. split; auto. split; auto. split; [|tauto]. nra.
      * subst t'. apply IH; auto. tauto.
Qed.
Lemma zeros_ok a d : forall w, (a + d <= length w)%nat -> exists w', foldM (fun w ll => wr w ll 0) (seq a d) w = Ret w' /\ length w' = length w /\ (forall j, (j < a)%nat -> nth j w' 0 = nth j w 0) /\ forall j, (a <= j < a + d)%nat -> nth j w' 0 = 0.
Proof.
  induction d as [|d IH]; intros w H. exists w. repeat split; auto. intros; lia. destruct (IH w ltac:(lia)) as (w' & E & L & A & B). rewrite seq_S, foldM_app, E. cbn [bind foldM]. rewrite wr_ok by lia. cbn [bind]. eexists. split. reflexivity. split. now rewrite upd_length. split.
  - intros j Hj. rewrite nth_upd_neq by lia. auto.
  - intros j Hj. destruct (Nat.eq_dec j (a + d)) as [->|N]. apply nth_upd_eq. lia. rewrite nth_upd_neq by lia. apply B. lia.
Qed.
Lemma col_ok w : length w = k -> exists r,
  (st <- orth false nPres sq P m (v, w) ;; let (p, w) := st : list R * list R in
   w <- foldM (fun w ll => wr w ll 0) (seq m (k - m)) w ;;
   (if Rgt_dec (norm p) (upperTol * norm v) then use_col (norm p) p w m P
    else if Rgt_dec (norm p) (lowerTol * norm v) then tries 2 nPres sq m (norm p) p w m P else Ret (m, P, w))) = Ret r /\ (taken r \/ left_out r).
Proof.
  intros Lw. pose proof tol_pos as (T1 & T2 & T3 & T4 & T5). assert (SV := size_nonneg n v).
  destruct (orth_ok n nPres m P sq ltac:(lia) HPn Hs HnP false v w Lv ltac:(lia)) as (p & w1 & E & L1 & L2 & A & I & O). rewrite E. cbn [bind].
  destruct (zeros_ok m (k - m) w1 ltac:(lia)) as (w2 & E2 & L3 & A2 & Z2). rewrite E2. cbn [bind]. rewrite !(norm_size n) by auto.
  assert (Sp : split w2 p). { split; auto. split. lia. split. intros j Hj. destruct (Nat.lt_ge_cases j k). apply Z2; lia. apply nth_overflow. lia. intros i Hi. specialize (I i Hi). rewrite (comb_ext m P P w2 w1). lra. intros j Hj. split; auto. }
  assert (L4 : length w2 = k) by lia.
  destruct (Rgt_dec (size n p) (upperTol * size n v)) as [D|D].
  - rewrite use_ok by auto. eexists. split. reflexivity. left. exists p, w2, (size n p). split; auto. split. nra. split. nra. split; auto.
  - destruct (Rgt_dec (size n p) (lowerTol * size n v)) as [D2|D2].
    + apply (tries_ok (size n p)); auto; nra.
    + eexists. split. reflexivity. right. exists p, w2. split; auto. split; auto. split. nra. intros _. lra.
Qed.
End Col.
