(** C103: the basis of the preserved vectors of a coarse facet and their coordinates *)
From Verif Require Import Base GramModel GramSpec GramProofs.
From Coq Require Import Lia Reals Lra.
Local Open Scope R_scope.

Lemma matrix_upd h w A j x : matrix h w A -> length x = h -> matrix h w (upd A j x).
Proof. intros (L & H) Hx. split. now rewrite upd_length. intros i Hi. destruct (Nat.eq_dec i j) as [->|N]. rewrite nth_upd_eq by lia. auto. rewrite nth_upd_neq by lia. auto. Qed.
Section Factor.
Context (n k s : nat) (V : list (list R)) (HV : matrix n k V) (Hs : (s <= k)%nat) (NZ : not_zero n s V).

(** after the columns below l *)
Definition at_col (l m : nat) (P W : list (list R)) : Prop :=
  (s <= m <= l)%nat /\ matrix n k P /\ matrix k k W /\
  (forall l, (l < s)%nat -> col P l = col V l) /\
  (forall l j, (l < s)%nat -> entry W j l = if (j =? l)%nat then 1 else 0) /\
  (forall l' j, (l' < l)%nat -> (m <= j)%nat -> entry W j l' = 0) /\
  (forall l', (l' < l)%nat -> exists r, length r = n /\ (forall i, (i < n)%nat -> entry V i l' = times m P W i l' + nth i r 0) /\
     ((l' < s)%nat -> forall i, nth i r 0 = 0) /\ size n r <= upperTol * upperTol * size n (col V l') /\ (orthogonal n s V -> size n r <= lowerTol * size n (col V l'))) /\
  (forall j, (s <= j < m)%nat -> exists l', (s <= l' < l)%nat /\ (j <= l')%nat /\ lowerTol * size n (col V l') < entry W j l' /\ 0 < entry W j l' /\ (forall j', (j < j')%nat -> entry W j' l' = 0) /\
     forall i, (i < n)%nat -> entry V i l' = times (S j) P W i l') /\
  (orthogonal n s V -> orthogonal n m P /\ forall j, (s <= j < m)%nat -> product n (col P j) (col P j) = 1).

Lemma col_len A h w j : matrix h w A -> (j < w)%nat -> length (nth j A []) = h.
Proof. intros (L & H) Hj. now apply H. Qed.
Lemma zero_size r : (forall i, nth i r 0 = 0) -> size n r = 0.
Proof. intros H. unfold size, product. rewrite total_zero. apply sqrt_0. intros. rewrite H. ring. Qed.
Lemma rep0 i : nth i (repeat 0 n) 0 = 0.
Proof. clear. revert i; induction n as [|m IH]; intros [|i]; cbn; auto. Qed.
Lemma rep0k h i : nth i (repeat 0 h) 0 = 0.
Proof. clear. revert i; induction h as [|m IH]; intros [|i]; cbn; auto. Qed.

Lemma first_ok P0 W0 : matrix n k P0 -> matrix k k W0 ->
  exists P W sq, foldM (first_col k V) (seq 0 s) (P0, W0, repeat 0 s) = Ret (P, W, sq) /\ length sq = s /\ (forall l, (l < s)%nat -> nth l sq 0 = product n (col V l) (col V l)) /\
   matrix n k P /\ matrix k k W /\ (forall l, (l < s)%nat -> col P l = col V l) /\ (forall l j, (l < s)%nat -> entry W j l = if (j =? l)%nat then 1 else 0).
Proof.
  intros MP MW. destruct (HV) as (LV & HVn).
  assert (G : forall t, (t <= s)%nat -> exists P W sq, foldM (first_col k V) (seq 0 t) (P0, W0, repeat 0 s) = Ret (P, W, sq) /\ length sq = s /\ (forall l, (l < t)%nat -> nth l sq 0 = product n (col V l) (col V l)) /\
   matrix n k P /\ matrix k k W /\ (forall l, (l < t)%nat -> col P l = col V l) /\ (forall l j, (l < t)%nat -> entry W j l = if (j =? l)%nat then 1 else 0)).
  { induction t as [|t IH]; intros Ht. exists P0, W0, (repeat 0 s). split; auto. split. apply repeat_length. split. intros; lia. repeat (split; auto); intros; lia.
    destruct (IH ltac:(lia)) as (P & W & sq & E & L & A & B & C & D & F). rewrite seq_S, foldM_app, E. cbn [bind foldM plus]. unfold first_col. destruct (B) as (LP & _). destruct (C) as (LW & _).
    rewrite (rd_ok V t []) by lia. cbn [bind]. rewrite wr_ok by lia. cbn [bind]. rewrite (rd_ok W t []) by lia. cbn [bind]. rewrite wr_ok by (rewrite repeat_length; lia). cbn [bind]. rewrite wr_ok by lia. cbn [bind]. rewrite wr_ok by lia. cbn [bind].
    eexists _, _, _. split. reflexivity. split. now rewrite upd_length. split.
    { intros l Hl. destruct (Nat.eq_dec l t) as [->|N]. rewrite nth_upd_eq by lia. apply dot_product; apply HVn; lia. rewrite nth_upd_neq by lia. apply A. lia. } split.
    { apply matrix_upd; auto. apply HVn. lia. } split. { apply matrix_upd; auto. rewrite upd_length. apply repeat_length. } split.
    { intros l Hl. unfold col. destruct (Nat.eq_dec l t) as [->|N]. rewrite nth_upd_eq by lia. auto. rewrite nth_upd_neq by lia. apply D. lia. }
    intros l j Hl. unfold entry. destruct (Nat.eq_dec l t) as [->|N].
    - rewrite (nth_upd_eq W) by lia. destruct (Nat.eqb_spec j t) as [->|N]. apply nth_upd_eq. rewrite repeat_length; lia. rewrite nth_upd_neq by lia. apply rep0k.
    - rewrite (nth_upd_neq W) by lia. apply F. lia. }
  apply (G s). lia.
Qed.
Lemma do_col_eq sq m P W l : do_col k V s sq (m, P, W) l =
  (v <- rd V l ;; w <- rd W l ;;
   r <- (st <- orth false s sq P (Nat.min l m) (v, w) ;; let (p, w) := st : list R * list R in
     w <- foldM (fun w ll => wr w ll 0) (seq (Nat.min l m) (k - Nat.min l m)) w ;;
     (if Rgt_dec (norm p) (upperTol * norm v) then use_col (norm p) p w m P
      else if Rgt_dec (norm p) (lowerTol * norm v) then tries 2 s sq (Nat.min l m) (norm p) p w m P else Ret (m, P, w))) ;;
   match r with (m, P, w) => W <- wr W l w ;; Ret (m, P, W) end).
Proof.
  unfold do_col. destruct (rd V l) as [v|]; cbn [bind]; auto. destruct (rd W l) as [w|]; cbn [bind]; auto. destruct (orth false s sq P (Nat.min l m) (v, w)) as [(p & w1)|]; cbn [bind]; auto.
  destruct (foldM (fun w ll => wr w ll 0) (seq (Nat.min l m) (k - Nat.min l m)) w1) as [w2|]; cbn [bind]; auto.
Qed.
Lemma col_step sq : length sq = s -> (forall l, (l < s)%nat -> nth l sq 0 = product n (col V l) (col V l)) -> forall l m P W, (s <= l < k)%nat -> at_col l m P W ->
  exists m' P' W', do_col k V s sq (m, P, W) l = Ret (m', P', W') /\ at_col (S l) m' P' W'.
Proof.
  intros Lsq Hsq l m P W Hl (M & MP & MW & A1 & A2 & A3 & A4 & A5 & A6). destruct (HV) as (LV & HVn). destruct (MP) as (LP & HPn). destruct (MW) as (LW & HWn).
  rewrite do_col_eq. rewrite (rd_ok V l []) by lia. cbn [bind]. rewrite (rd_ok W l []) by lia. cbn [bind]. replace (Nat.min l m) with m by lia.
  destruct (col_ok n k m s P sq (nth l V []) LP ltac:(intros; apply HPn; lia) Lsq ltac:(lia) ltac:(lia) ltac:(apply HVn; lia) (nth l W []) ltac:(apply HWn; lia)) as (r & E & T). rewrite E. cbn [bind]. clear E.
  assert (BS : orthogonal n s V -> basis n s m P sq).
  { intros OV. destruct (A6 OV) as (O & U). split; [|split; auto].
    - intros j Hj. rewrite Hsq by auto. split. fold (col P j). rewrite A1 by auto. auto. now apply NZ. }
  destruct T as [(p & w & c & (S1 & S2 & S3 & S4) & Hc & Hl2 & -> & B)|(p & w & (S1 & S2 & S3 & S4) & -> & B1 & B2)].
  - rewrite wr_ok by lia. cbn [bind]. eexists _, _, _. split. reflexivity.
    set (P' := upd P m (scale (1 / c) p)). set (w' := upd w m c). set (W' := upd W l w').
    assert (EP : forall i j, (j < m)%nat -> entry P' i j = entry P i j). { intros i j Hj. unfold entry, P'. rewrite nth_upd_neq by lia. auto. }
    assert (EPm : forall i, entry P' i m = 1 / c * nth i p 0). { intros i. unfold entry, P'. rewrite nth_upd_eq by lia. apply scale_nth. }
    assert (EW : forall j l', l' <> l -> entry W' j l' = entry W j l'). { intros j l' N. unfold entry, W'. rewrite nth_upd_neq by lia. auto. }
    assert (EWl : forall j, entry W' j l = nth j w' 0). { intros j. unfold entry, W'. rewrite nth_upd_eq by lia. auto. }
    assert (TO : forall i l' t, (l' < l)%nat -> (t <= m)%nat -> times t P' W' i l' = times t P W i l'). { intros i l' t Hl' Ht. apply total_ext. intros j Hj. rewrite EP by lia. rewrite EW by lia. auto. }
    assert (TOS : forall i l', (l' < l)%nat -> times (S m) P' W' i l' = times m P W i l'). { intros i l' Hl'. unfold times at 1. cbn [total]. fold (times m P' W' i l'). rewrite TO by lia. rewrite EW, A3 by lia. ring. }
    assert (TN : forall i, (i < n)%nat -> entry V i l = times (S m) P' W' i l).
    { intros i Hi. unfold entry at 1. rewrite S4 by auto. unfold times. cbn [total]. rewrite EWl, EPm. unfold w'. rewrite nth_upd_eq by lia. unfold comb. rewrite (total_ext (fun j => entry P' i j * entry W' j l) (fun j => entry P i j * nth j w 0)). field. lra. intros j Hj. rewrite EP, EWl by auto. unfold w'. rewrite nth_upd_neq by lia. auto. }
    assert (CP : forall j, (j < m)%nat -> col P' j = col P j). { intros j Hj. unfold col, P'. now rewrite nth_upd_neq by lia. }
    assert (CPm : col P' m = scale (1 / c) p). { unfold col, P'. now rewrite nth_upd_eq by lia. }
    split. lia. split. apply matrix_upd; auto. now rewrite scale_length. split. apply matrix_upd; auto. unfold w'. rewrite upd_length. lia. split. { intros j Hj. rewrite CP by lia. auto. } split. { intros j i Hj. rewrite EW by lia. auto. } split.
    { intros l' j Hl' Hj. destruct (Nat.eq_dec l' l) as [->|N]. rewrite EWl. unfold w'. rewrite nth_upd_neq by lia. apply S3. lia. rewrite EW by auto. apply A3; lia. } split.
    { intros l' Hl'. destruct (Nat.eq_dec l' l) as [->|N].
      - exists (repeat 0 n). split. apply repeat_length. split. intros i Hi. rewrite rep0, Rplus_0_r. auto. split. intros _ i. apply rep0. rewrite zero_size by apply rep0. pose proof tol_pos. pose proof (size_nonneg n (col V l)). split. nra. intros _. nra.
      - destruct (A4 l' ltac:(lia)) as (r & R1 & R2 & R3). exists r. split; auto. split; auto. intros i Hi. rewrite TOS by lia. auto. } split.
    { intros j Hj. destruct (Nat.eq_dec j m) as [->|N].
      - exists l. split. lia. split. lia. rewrite EWl. unfold w'. rewrite nth_upd_eq by lia. split. exact Hl2. split; auto. split. intros j' Hj'. rewrite EWl. unfold w'. rewrite nth_upd_neq by lia. apply S3. lia. auto.
      - destruct (A5 j ltac:(lia)) as (l' & L1 & L2 & L3 & L4 & L5 & L6). exists l'. split. lia. split; auto. rewrite EW by lia. split; auto. split; auto. split. intros j' Hj'. rewrite EW by lia. auto. intros i Hi. rewrite TO by lia. auto. }
    intros OV. destruct (A6 OV) as (O & U). destruct (B (BS OV)) as (B1 & B2).
    assert (PM : forall j, (j < m)%nat -> product n (scale (1 / c) p) (col P j) = 0). { intros j Hj. rewrite product_scale. unfold col. rewrite B2 by auto. ring. }
    split.
    + intros j j' Hj Hj' N. destruct (Nat.eq_dec j m) as [->|Nj]; destruct (Nat.eq_dec j' m) as [->|Nj']; try lia.
      * rewrite CPm, CP by lia. apply PM. lia.
      * rewrite CPm, CP by lia. rewrite product_sym. apply PM. lia.
      * rewrite !CP by lia. apply O; lia.
    + intros j Hj. destruct (Nat.eq_dec j m) as [->|Nj]. 2: rewrite CP by lia; apply U; lia.
      rewrite CPm, product_scale, product_sym, product_scale, <- size_sqr, B1. field. lra.
  - rewrite wr_ok by lia. cbn [bind]. eexists _, _, _. split. reflexivity. set (W' := upd W l w).
    assert (EW : forall j l', l' <> l -> entry W' j l' = entry W j l'). { intros j l' N. unfold entry, W'. rewrite nth_upd_neq by lia. auto. }
    assert (EWl : forall j, entry W' j l = nth j w 0). { intros j. unfold entry, W'. rewrite nth_upd_eq by lia. auto. }
    assert (TO : forall i l' t, (l' < l)%nat -> times t P W' i l' = times t P W i l'). { intros i l' t Hl'. apply total_ext. intros j Hj. rewrite EW by lia. auto. }
    split. lia. split; auto. split. apply matrix_upd; auto. split; auto. split. { intros j i Hj. rewrite EW by lia. auto. } split.
    { intros l' j Hl' Hj. destruct (Nat.eq_dec l' l) as [->|N]. rewrite EWl. apply S3. lia. rewrite EW by auto. apply A3; lia. } split.
    { intros l' Hl'. destruct (Nat.eq_dec l' l) as [->|N].
      - exists p. split; auto. split. { intros i Hi. unfold entry at 1. rewrite S4 by auto. f_equal. apply total_ext. intros j Hj. now rewrite EWl. } split. intros; lia. split. exact B1. intros OV. exact (B2 (BS OV)).
      - destruct (A4 l' ltac:(lia)) as (r & R1 & R2 & R3). exists r. split; auto. split; auto. intros i Hi. rewrite TO by lia. auto. } split; auto.
    intros j Hj. destruct (A5 j ltac:(lia)) as (l' & L1 & L2 & L3 & L4 & L5 & L6). exists l'. split. lia. split; auto. rewrite EW by lia. split; auto. split; auto. split. intros j' Hj'. rewrite EW by lia. auto. intros i Hi. rewrite TO by lia. auto.
Qed.
Lemma computePW_ok P0 W0 : matrix n k P0 -> matrix k k W0 -> exists m P W, computePW V s P0 W0 = Ret (m, P, W) /\ at_col k m P W.
Proof.
  intros MP MW. destruct (HV) as (LV & HVn). unfold computePW. rewrite LV. destruct (first_ok P0 W0 MP MW) as (P & W & sq & E & Lsq & Hsq & B & C & D & F). rewrite E. cbn [bind].
  assert (G : forall t, (s + t <= k)%nat -> exists m' P' W', foldM (do_col k V s sq) (seq s t) (s, P, W) = Ret (m', P', W') /\ at_col (s + t) m' P' W').
  { induction t as [|t IH]; intros Ht.
    - exists s, P, W. split; auto. rewrite Nat.add_0_r. split. lia. split; auto. split; auto. split; auto. split; auto. split. { intros l j Hl Hj. rewrite F by auto. destruct (Nat.eqb_spec j l); auto. lia. } split.
      + intros l Hl. exists (repeat 0 n). split. apply repeat_length. split. 2: split; [intros _ i; apply rep0|]. 2:{ rewrite zero_size by apply rep0. pose proof tol_pos. pose proof (size_nonneg n (col V l)). split. nra. intros _. nra. }
        intros i Hi. rewrite rep0, Rplus_0_r. unfold times. assert (G : forall t, (l < t)%nat -> total (fun j => entry P i j * entry W j l) t = entry P i l).
        { induction t as [|t IH]; intros Hlt. lia. cbn. destruct (Nat.eq_dec l t) as [->|N]. rewrite total_zero. rewrite F by auto. rewrite Nat.eqb_refl. ring. intros j Hj. rewrite F by auto. destruct (Nat.eqb_spec j t). lia. ring. rewrite IH by lia. rewrite F by auto. destruct (Nat.eqb_spec t l). lia. ring. }
        rewrite G by auto. unfold entry. fold (col V l). fold (col P l). now rewrite D.
      + split. intros; lia. intros OV. split. intros l l' H1 H2 N. rewrite !D by auto. auto. intros; lia.
    - destruct (IH ltac:(lia)) as (m & P' & W' & E' & I). rewrite seq_S, foldM_app, E'. cbn [bind foldM]. destruct (col_step sq Lsq Hsq (s + t) m P' W' ltac:(lia) I) as (m2 & P2 & W2 & E2 & I2). rewrite E2. cbn [bind]. exists m2, P2, W2. split; auto. now rewrite Nat.add_succ_r. }
  destruct (G (k - s)%nat ltac:(lia)) as (m & P' & W' & E' & I). exists m, P', W'. split; auto. replace (s + (k - s))%nat with k in I by lia. auto.
Qed.
Lemma at_factorisation m P W : at_col k m P W -> factorisation n k s V m P W.
Proof.
  intros (A0 & A1 & A2 & A3 & A4 & A5 & A6 & A7 & A8). split; auto. split; auto. split; auto. split; auto. split; auto. split.
  - intros l Hl. destruct (A6 l Hl) as (r & R1 & R2 & R3 & R4 & R5). exists r. split; auto. split; auto. split; auto. replace (/ 1000000) with (upperTol * upperTol) by (unfold upperTol; lra). split; auto.
  - exact A7.
Qed.
End Factor.

Theorem C103_factor : forall n k s V P0 W0, matrix n k V -> (s <= k)%nat -> not_zero n s V -> matrix n k P0 -> matrix k k W0 ->
  exists m P W, computePW V s P0 W0 = Ret (m, P, W) /\ factorisation n k s V m P W /\
    (orthogonal n s V -> orthogonal n m P /\ forall j, (s <= j < m)%nat -> product n (col P j) (col P j) = 1).
Proof.
  intros n k s V P0 W0 MV Hs NZ MP MW. destruct (computePW_ok n k s V MV Hs NZ P0 W0 MP MW) as (m & P & W & E & A). exists m, P, W. split; auto. split. now apply at_factorisation. apply A.
Qed.

(** ** removing the flow *)
Lemma total_two a b n j (d : R) : (0 < j < n)%nat -> (forall i, (i < n)%nat -> a i = b i + (if (i =? 0)%nat then d else 0) - (if (i =? j)%nat then d else 0)) -> total a n = total b n.
Proof.
  intros Hj H. assert (G : forall t, (0 < t <= n)%nat -> total a t = total b t + (if (j <? t)%nat then 0 else d)).
  { induction t as [|t IH]; intros Ht. lia. cbn [total]. destruct (Nat.eq_dec t 0) as [->|N].
    - cbn [total]. rewrite H by lia. rewrite Nat.eqb_refl. destruct (Nat.eqb_spec 0 j); [lia|]. destruct (Nat.ltb_spec j 1); [lia|]. ring.
    - rewrite IH by lia. rewrite H by lia. destruct (Nat.eqb_spec t 0). lia. destruct (Nat.eqb_spec t j); destruct (Nat.ltb_spec j t); destruct (Nat.ltb_spec j (S t)); try lia; ring. }
  rewrite G by lia. destruct (Nat.ltb_spec j n). ring. lia.
Qed.
Lemma rows_ok k alpha j W : matrix k k W -> (0 < j < k)%nat ->
  exists W', foldM (fun W c => w <- rd W c ;; x <- rd w 0%nat ;; y <- rd w j ;; w <- wr w 0%nat (x + alpha * y) ;; wr W c w) (seq 0 (length W)) W = Ret W' /\ matrix k k W' /\
    forall i l, (l < k)%nat -> entry W' i l = if (i =? 0)%nat then entry W 0 l + alpha * entry W j l else entry W i l.
Proof.
  intros M Hj. destruct (M) as (LW & HW). rewrite LW.
  assert (G : forall t, (t <= k)%nat -> exists W', foldM (fun W c => w <- rd W c ;; x <- rd w 0%nat ;; y <- rd w j ;; w <- wr w 0%nat (x + alpha * y) ;; wr W c w) (seq 0 t) W = Ret W' /\ matrix k k W' /\
    (forall i l, (l < t)%nat -> entry W' i l = if (i =? 0)%nat then entry W 0 l + alpha * entry W j l else entry W i l) /\ forall l, (t <= l)%nat -> nth l W' [] = nth l W []).
  { induction t as [|t IH]; intros Ht. exists W. split; auto. split; auto. split; auto. intros; lia.
    destruct (IH ltac:(lia)) as (W' & E & M' & A & B). destruct (M') as (L' & H'). rewrite seq_S, foldM_app, E. cbn [bind foldM plus]. rewrite (rd_ok W' t []) by lia. cbn [bind]. assert (LT : length (nth t W' []) = k) by (apply H'; lia).
    rewrite (rd_ok _ 0%nat 0) by lia. cbn [bind]. rewrite (rd_ok _ j 0) by lia. cbn [bind]. rewrite wr_ok by lia. cbn [bind]. rewrite wr_ok by lia. cbn [bind]. eexists. split. reflexivity. split. { apply matrix_upd; auto. now rewrite upd_length. } split.
    - intros i l Hl. unfold entry at 1. destruct (Nat.eq_dec l t) as [->|N].
      + rewrite (nth_upd_eq W') by lia. rewrite B by lia. unfold entry. destruct (Nat.eqb_spec i 0) as [->|Ni]. rewrite nth_upd_eq by (rewrite HW by lia; lia). auto. rewrite nth_upd_neq by lia. auto.
      + rewrite (nth_upd_neq W') by lia. apply A. lia.
    - intros l Hl. rewrite nth_upd_neq by lia. apply B. lia. }
  destruct (G k (Nat.le_refl k)) as (W' & E & M' & A & _). exists W'. auto.
Qed.
Lemma zero_step n k s V m P W f j : factorisation n k s V m P W -> (0 < s)%nat -> length f = n -> (s <= j < m)%nat -> product n f (col P 0) <> 0 ->
  exists P' W', zero_flow f (product n f (col P 0)) (P, W) j = Ret (P', W') /\ factorisation n k s V m P' W' /\ product n f (col P' j) = 0 /\ forall i, i <> j -> col P' i = col P i.
Proof.
  intros (A0 & A1 & A2 & A3 & A4 & A5 & A6) Hs Lf Hj NZ. destruct (A1) as (LP & HP). unfold zero_flow. rewrite (rd_ok P j []) by lia. cbn [bind]. rewrite (rd_ok P 0%nat []) by lia. cbn [bind]. rewrite wr_ok by lia. cbn [bind].
  set (alpha := dot f (nth j P []) / product n f (col P 0)). destruct (rows_ok k alpha j W A2 ltac:(lia)) as (W' & E & M' & R). rewrite E. cbn [bind].
  set (P' := upd P j (sub_scaled (nth j P []) alpha (nth 0 P []))). exists P', W'. split; auto.
  assert (LQ : length (sub_scaled (nth j P []) alpha (nth 0 P [])) = n). { apply sub_length; apply HP; lia. }
  assert (CP : forall i, i <> j -> col P' i = col P i). { intros i N. unfold col, P'. now rewrite nth_upd_neq by lia. }
  assert (CPj : col P' j = sub_scaled (nth j P []) alpha (nth 0 P [])). { unfold col, P'. now rewrite nth_upd_eq by lia. }
  assert (EP : forall i t, entry P' i t = entry P i t - (if (t =? j)%nat then alpha * entry P i 0 else 0)).
  { intros i t. unfold entry. fold (col P' t). fold (col P t). destruct (Nat.eqb_spec t j) as [->|N]. rewrite CPj. unfold col. rewrite (sub_nth n) by (apply HP; lia). auto. rewrite CP by auto. ring. }
  assert (TT : forall t i l, (l < k)%nat -> (j < t)%nat \/ entry W j l = 0 -> times t P' W' i l = times t P W i l).
  { intros t i l Hl C. destruct (Nat.lt_ge_cases j t) as [J|J].
    - apply (total_two _ _ t j (entry P i 0 * (alpha * entry W j l))). lia. intros q Hq. rewrite EP, R by auto. destruct (Nat.eqb_spec q 0) as [Q0|Q0]; destruct (Nat.eqb_spec q j) as [Qj|Qj]; try lia.
      + subst q. ring.
      + subst q. ring.
      + ring.
    - destruct C as [C|C]. lia. apply total_ext. intros q Hq. rewrite EP, R by auto. destruct (Nat.eqb_spec q j). lia. destruct (Nat.eqb_spec q 0) as [->|Nq]. rewrite C. ring. ring. }
  split; [|split; auto].
  - split; auto. split. { unfold P'. apply matrix_upd; auto. } split; auto. split. { intros l Hl. rewrite CP by lia. auto. } split.
    { intros l i Hl. rewrite R by lia. destruct (Nat.eqb_spec i 0) as [->|N]; rewrite !A4 by auto. destruct (Nat.eqb_spec j l). lia. ring. auto. } split.
    + intros l Hl. destruct (A5 l Hl) as (r & R1 & R2 & R3). exists r. split; auto. split; auto. intros i Hi. rewrite TT; auto. left. lia.
    + intros q Hq. destruct (A6 q Hq) as (l & L1 & L2 & L3 & L4 & L5 & L6). exists l. split; auto. split; auto. rewrite R by lia. destruct (Nat.eqb_spec q 0). lia. split; auto. split; auto. split. { intros j' Hj'. rewrite R by lia. destruct (Nat.eqb_spec j' 0). lia. auto. }
      intros i Hi. rewrite TT. auto. lia. destruct (Nat.lt_ge_cases j (S q)). auto. right. apply L5. lia.
  - rewrite CPj, product_sym, product_sub by (apply HP; lia). fold (col P j). fold (col P 0). unfold alpha. rewrite (dot_product n) by (auto; apply HP; lia). fold (col P j). rewrite (product_sym n (col P j) f), (product_sym n (col P 0) f). field. auto.
Qed.
Theorem C103_zero_flow : forall n k s V P0 W0 f, matrix n k V -> (0 < s <= k)%nat -> not_zero n s V -> matrix n k P0 -> matrix k k W0 -> length f = n -> product n f (col V 0) <> 0 ->
  exists m P W P1 W1, computePWZF f V s P0 W0 = Ret (m, P, W) /\ factorisation n k s V m P W /\ (forall j, (s <= j < m)%nat -> product n f (col P j) = 0) /\
    (** the same number of columns as without removing the flow *)
    computePW V s P0 W0 = Ret (m, P1, W1).
Proof.
  intros n k s V P0 W0 f MV Hs NZ MP MW Lf NF. destruct (computePW_ok n k s V MV ltac:(lia) NZ P0 W0 MP MW) as (m & P & W & E & A). unfold computePWZF. rewrite E. cbn [bind]. apply at_factorisation in A. destruct (A) as (A0 & (LP & HP) & A2 & A3 & _).
  rewrite (rd_ok P 0%nat []) by lia. cbn [bind]. rewrite (dot_product n) by (auto; apply HP; lia). fold (col P 0).
  assert (NP : product n f (col P 0) <> 0) by (rewrite A3 by lia; auto).
  assert (G : forall t, (s + t <= m)%nat -> exists P' W', foldM (zero_flow f (product n f (col P 0))) (seq s t) (P, W) = Ret (P', W') /\ factorisation n k s V m P' W' /\ col P' 0 = col P 0 /\ forall j, (s <= j < s + t)%nat -> product n f (col P' j) = 0).
  { induction t as [|t IH]; intros Ht. exists P, W. repeat (split; auto). intros; lia. destruct (IH ltac:(lia)) as (P' & W' & E' & F & C & Z). rewrite seq_S, foldM_app, E'. cbn [bind foldM]. rewrite <- C.
    destruct (zero_step n k s V m P' W' f (s + t) F ltac:(lia) Lf ltac:(lia)) as (P2 & W2 & E2 & F2 & Z2 & C2). rewrite C. auto. rewrite E2. cbn [bind]. exists P2, W2. split; auto. split; auto. split. rewrite C2 by lia. auto. intros j Hj. destruct (Nat.eq_dec j (s + t)) as [->|N]. auto. rewrite C2 by auto. apply Z. lia. }
  destruct (G (m - s)%nat ltac:(lia)) as (P' & W' & E' & F & C & Z). rewrite E'. cbn [bind]. exists m, P', W', P, W. split; auto. split; auto. split; auto. intros j Hj. apply Z. lia.
Qed.

(** one special vector (3,4), its double and (-1,7): two basis vectors; the second is (-4/5, 3/5), and without flow (flow (1,1)) it is the second minus -1/35 times the first *)
Definition Vx : list (list R) := [[3; 4]; [6; 8]; [-1; 7]].
Definition Zx : list (list R) := [[0; 0]; [0; 0]; [0; 0]].
Definition Z3 : list (list R) := [[0; 0; 0]; [0; 0; 0]; [0; 0; 0]].
Lemma sqrt_sq x y : 0 <= y -> x = y * y -> sqrt x = y.
Proof. intros H ->. now apply sqrt_square. Qed.
Example C103_ex : matrix 2 3 Vx /\ not_zero 2 1 Vx /\ orthogonal 2 1 Vx /\ matrix 2 3 Zx /\ matrix 3 3 Z3 /\ product 2 [1; 1] (col Vx 0) <> 0 /\
  exists P W, computePW Vx 1 Zx Z3 = Ret (2%nat, P, W) /\ entry P 0 1 = - (4 / 5) /\ entry P 1 1 = 3 / 5 /\ W = [[1; 0; 0]; [2; 0; 0]; [1; 5; 0]].
Proof.
  split. { split; auto. intros j Hj. do 3 (destruct j as [|j]; [reflexivity|]). lia. } split. { intros l Hl. destruct l; [|lia]. unfold product, col, total. cbn. lra. } split. { intros l l' Hl Hl' N. lia. } split. { split; auto. intros j Hj. do 3 (destruct j as [|j]; [reflexivity|]). lia. } split. { split; auto. intros j Hj. do 3 (destruct j as [|j]; [reflexivity|]). lia. } split. { unfold product, col, total. cbn. lra. }
  assert (S1 : foldM (first_col 3 Vx) (seq 0 1) (Zx, Z3, repeat 0 1) = Ret ([[3; 4]; [0; 0]; [0; 0]], [[1; 0; 0]; [0; 0; 0]; [0; 0; 0]], [25])).
  { cbn -[IZR Rmult Rplus Rminus Rdiv dot]. replace (dot [3; 4] [3; 4]) with 25. reflexivity. unfold dot. cbn -[IZR Rmult Rplus]. lra. }
  assert (S2 : do_col 3 Vx 1 [25] (1%nat, [[3; 4]; [0; 0]; [0; 0]], [[1; 0; 0]; [0; 0; 0]; [0; 0; 0]]) 1 = Ret (1%nat, [[3; 4]; [0; 0]; [0; 0]], [[1; 0; 0]; [2; 0; 0]; [0; 0; 0]])).
  { cbn -[IZR Rmult Rplus Rminus Rdiv dot norm sub_scaled Rgt_dec tries use_col upperTol lowerTol]. replace (dot [6; 8] [3; 4] / 25) with 2. replace (norm (sub_scaled [6; 8] 2 [3; 4])) with 0. replace (norm [6; 8]) with 10.
    pose proof tol_pos. destruct (Rgt_dec 0 (upperTol * 10)). exfalso. nra. destruct (Rgt_dec 0 (lowerTol * 10)). exfalso. nra. reflexivity.
    - symmetry. apply sqrt_sq. lra. unfold dot. cbn -[IZR Rmult Rplus]. lra.
    - symmetry. apply sqrt_sq. lra. unfold dot, sub_scaled. cbn -[IZR Rmult Rplus Rminus]. lra.
    - unfold dot. cbn -[IZR Rmult Rplus Rdiv]. lra. }
  assert (S3 : do_col 3 Vx 1 [25] (1%nat, [[3; 4]; [0; 0]; [0; 0]], [[1; 0; 0]; [2; 0; 0]; [0; 0; 0]]) 2 = Ret (2%nat, [[3; 4]; scale (1 / 5) (sub_scaled [-1; 7] 1 [3; 4]); [0; 0]], [[1; 0; 0]; [2; 0; 0]; [1; 5; 0]])).
  { cbn -[IZR Rmult Rplus Rminus Rdiv dot norm sub_scaled Rgt_dec tries use_col upperTol lowerTol]. replace (dot [-1; 7] [3; 4] / 25) with 1. replace (norm (sub_scaled [-1; 7] 1 [3; 4])) with 5. assert (B : 0 <= norm [-1; 7] < 100).
    - split. apply sqrt_pos. unfold norm. replace 100 with (sqrt 10000). apply sqrt_lt_1_alt. unfold dot. cbn -[IZR Rmult Rplus]. lra. apply sqrt_sq; lra.
    - destruct (Rgt_dec 5 (upperTol * norm [-1; 7])) as [D|D]. reflexivity. exfalso. apply D. unfold upperTol. nra.
    - symmetry. apply sqrt_sq. lra. unfold dot, sub_scaled. cbn -[IZR Rmult Rplus Rminus]. lra.
    - unfold dot. cbn -[IZR Rmult Rplus Rdiv]. lra. }
  eexists _, _. split. { unfold computePW. change (length Vx) with 3%nat. rewrite S1. cbn [bind]. change (seq 1 (3 - 1)) with [1; 2]%nat. cbn [foldM]. rewrite S2. cbn [bind]. rewrite S3. reflexivity. }
  unfold entry, scale, sub_scaled. cbn -[IZR Rmult Rplus Rminus Rdiv]. repeat split; lra.
Qed.
Print Assumptions C103_factor.
Print Assumptions C103_zero_flow.
