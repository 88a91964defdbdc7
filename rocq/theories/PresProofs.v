From Verif Require Import Base GramModel GramSpec GramProofs GramProps MeshDofsModel MeshDofsSpec MeshDofsProofs PresModel PresSpec.
From Coq Require Import Lia Reals Lra.
Local Open Scope R_scope.

Lemma foldM_inv {A B} (F : A -> B -> res A) (I : list B -> A -> Prop) l init : I [] init ->
  (forall done x rest st, l = done ++ x :: rest -> I done st -> exists st', F st x = Ret st' /\ I (done ++ [x]) st') ->
  exists st, foldM F l init = Ret st /\ I l st.
Proof.
  intros H0 HS. assert (G : forall todo done st, l = done ++ todo -> I done st -> exists st', foldM F todo st = Ret st' /\ I l st').
  { induction todo as [|x todo IH]; intros done st E H. rewrite app_nil_r in E. subst. exists st. auto. cbn [foldM]. destruct (HS done x todo st E H) as (st' & E' & H'). rewrite E'. cbn [bind]. apply (IH (done ++ [x])). now rewrite <- app_assoc. auto. }
  apply (G l []); auto.
Qed.
Lemma foldM_app_list {B C} (F : list C -> B -> res (list C)) (ys : B -> list C) l : (forall acc x, In x l -> F acc x = Ret (acc ++ ys x)) -> forall init, foldM F l init = Ret (init ++ flat_map ys l).
Proof.
  induction l as [|x l IH]; intros H init; cbn [foldM flat_map]. now rewrite app_nil_r. rewrite H by (left; auto). cbn [bind]. rewrite IH. now rewrite <- app_assoc. intros acc y Y. apply H. now right.
Qed.
Lemma flat_single {A B} (g : A -> B) l : flat_map (fun x => [g x]) l = map g l.
Proof. induction l; cbn; congruence. Qed.
Lemma put_list_ok a xs arr : (a + length xs <= length arr)%nat -> exists arr', put_list a xs arr = Ret arr' /\ length arr' = length arr /\
  (forall i, (i < length xs)%nat -> nth (a + i) arr' 0 = nth i xs 0) /\ forall j, ~ (a <= j < a + length xs)%nat -> nth j arr' 0 = nth j arr 0.
Proof.
  intros H. unfold put_list.
  assert (G : forall k, (k <= length xs)%nat -> exists o, foldM (fun arr i => x <- rd xs i ;; wr arr (a + i) x) (seq 0 k) arr = Ret o /\ length o = length arr /\ (forall i, (i < k)%nat -> nth (a + i) o 0 = nth i xs 0) /\ forall j, ~ (a <= j < a + k)%nat -> nth j o 0 = nth j arr 0).
  { induction k as [|k IH]; intros Hk. exists arr. repeat split; auto. intros; lia.
    destruct (IH ltac:(lia)) as (o & E & Lo & P & Q). rewrite seq_S, foldM_app, E. cbn [bind foldM plus]. rewrite (rd_ok _ _ 0) by lia. cbn [bind]. rewrite wr_ok by lia. cbn [bind]. eexists. split. reflexivity. split. now rewrite upd_length. split.
    - intros i Hi. destruct (Nat.eq_dec i k) as [->|X]. rewrite nth_upd_eq by lia. auto. rewrite nth_upd_neq by lia. apply P. lia.
    - intros j Hj. rewrite nth_upd_neq by lia. apply Q. lia. }
  destruct (G (length xs) (Nat.le_refl _)) as (o & E & X). exists o. auto.
Qed.
Lemma grid_length (g : nat -> nat -> R) m h : length (flat_map (fun k => map (g k) (seq 0 m)) (seq 0 h)) = (h * m)%nat.
Proof. induction h as [|h IH]. reflexivity. rewrite seq_S, flat_map_app, app_length, IH. cbn. rewrite app_nil_r, map_length, seq_length. lia. Qed.
Lemma grid_nth (g : nat -> nat -> R) m h a b : (a < h)%nat -> (b < m)%nat -> nth (a * m + b) (flat_map (fun k => map (g k) (seq 0 m)) (seq 0 h)) 0 = g a b.
Proof.
  intros Ha Hb. induction h as [|h IH]. lia. rewrite seq_S, flat_map_app. cbn [plus flat_map]. rewrite app_nil_r. destruct (Nat.eq_dec a h) as [->|N].
  - rewrite app_nth2 by (rewrite grid_length; lia). rewrite grid_length. replace (h * m + b - h * m)%nat with b by lia. rewrite (nth_indep _ 0 (g h 0%nat)) by (rewrite map_length, seq_length; lia). rewrite map_nth, seq_nth by lia. auto.
  - rewrite app_nth1. apply IH. lia. rewrite grid_length. assert (a * m + b < S a * m)%nat by (cbn; lia). assert (S a * m <= h * m)%nat by (apply Nat.mul_le_mono_r; lia). lia.
Qed.
Lemma apply_seq b m (v x : nat -> R) : apply_row (seq b m, map v (seq 0 m)) x = total (fun t => v t * x (b + t)%nat) m.
Proof.
  unfold apply_row, sum. cbn [fst snd]. assert (G : forall m b s, fold_right Rplus 0 (map (fun cv => snd cv * x (fst cv)) (combine (seq b m) (map v (seq s m)))) = total (fun t => v (s + t)%nat * x (b + t)%nat) m).
  { clear. induction m as [|m IH]; intros b s. reflexivity. rewrite total_left. cbn [seq map combine fold_right fst snd]. rewrite IH. rewrite !Nat.add_0_r. f_equal. apply total_ext. intros i Hi. f_equal; f_equal; lia. }
  rewrite G. reflexivity.
Qed.
Lemma sum_total (l : list R) : sum l = total (fun i => nth i l 0) (length l).
Proof. induction l as [|x l IH]. reflexivity. cbn [length]. rewrite total_left. cbn [nth]. unfold sum in *. cbn. now rewrite IH. Qed.
Lemma sum_app a b : sum (a ++ b) = sum a + sum b.
Proof. unfold sum. induction a as [|x a IH]; cbn. ring. rewrite IH. ring. Qed.
Lemma dot_sum x y : dot x y = sum (map (fun ab => fst ab * snd ab) (combine x y)).
Proof. reflexivity. Qed.
Lemma dot_app a b c d : length a = length b -> dot (a ++ c) (b ++ d) = dot a b + dot c d.
Proof. unfold dot. revert b; induction a as [|x a IH]; intros [|y b] H; cbn in *; try lia. ring. rewrite IH by lia. ring. Qed.

Lemma prefix_in {A} (l done rest : list A) x : l = done ++ x :: rest -> NoDup l -> In x l /\ ~ In x done.
Proof. intros -> N. split. apply in_or_app. right. now left. apply NoDup_remove_2 in N. intros C. apply N. apply in_or_app. now left. Qed.
Lemma seq_prefix n : forall s done x rest, seq s n = done ++ x :: rest -> done = seq s (length done) /\ x = (s + length done)%nat /\ (length done < n)%nat.
Proof. induction n as [|n IH]; intros s [|d done] x rest E; cbn in E; try discriminate. injection E as E1 E2. cbn. repeat split; lia. injection E as E1 E2. destruct (IH _ _ _ _ E2) as (A & B & C). cbn. split. now rewrite <- E1, <- A. split; lia. Qed.
Lemma rows_disjoint {A} (L : list (list A)) : NoDup (concat L) -> forall a b x, In x (nth a L []) -> In x (nth b L []) -> a = b.
Proof.
  induction L as [|r L IH]; intros N a b x Ha Hb. destruct a; easy. cbn in N.
  assert (D : forall c, In x r -> In x (nth c L []) -> False). { intros c H1 H2. revert N. clear -H1 H2. induction r as [|y r IHr]; cbn; intros N. easy. inversion N; subst. destruct H1 as [->|H1]. apply H3. apply in_or_app. right. apply in_concat. exists (nth c L []). split; auto. destruct (Nat.lt_ge_cases c (length L)). now apply nth_In. rewrite nth_overflow in H2 by auto. easy. auto. }
  assert (N2 : NoDup (concat L)). { clear -N. induction r as [|y r IHr]; cbn in N. auto. inversion N; auto. }
  destruct a as [|a], b as [|b]; cbn in Ha, Hb; auto. exfalso; eauto. exfalso; eauto. f_equal. eapply IH; eauto.
Qed.
Lemma rows_nodup {A} (L : list (list A)) : NoDup (concat L) -> forall a, NoDup (nth a L []).
Proof.
  induction L as [|r L IH]; intros N [|a]; cbn; try constructor; cbn in N.
  - clear -N. induction r as [|y r IHr]; constructor; inversion N; subst; auto. intros C. apply H1. apply in_or_app. now left.
  - apply IH. clear -N. induction r as [|y r IHr]; cbn in N. auto. inversion N; auto.
Qed.
Lemma foldM_map_eq {A B C} (F : A -> B -> res A) (G : A -> C -> res A) (g : B -> C) l : (forall st x, In x l -> F st x = G st (g x)) -> forall st, foldM F l st = foldM G (map g l) st.
Proof. induction l as [|x l IH]; intros H st; cbn. auto. rewrite H by (left; auto). destruct (G st (g x)); cbn; auto. apply IH. intros; apply H; now right. Qed.
Lemma foldM_flat {A B C} (F : A -> B -> res A) (G : A -> C -> res A) (g : B -> list C) l : (forall st x, In x l -> F st x = foldM G (g x) st) -> forall st, foldM F l st = foldM G (flat_map g l) st.
Proof. induction l as [|x l IH]; intros H st; cbn. auto. rewrite H by (left; auto). rewrite foldM_app. destruct (foldM G (g x) st); cbn; auto. apply IH. intros; apply H; now right. Qed.
Lemma collect {A B} (f : A -> res B) (g : A -> B) l : (forall x, In x l -> f x = Ret (g x)) -> foldM (fun acc x => y <- f x ;; Ret (acc ++ [y])) l [] = Ret (map g l).
Proof. intros H. rewrite (foldM_app_list _ (fun x => [g x])). now rewrite flat_single. intros acc x X. now rewrite H. Qed.
Lemma put_seq b data : forall v, (b + length data <= length v)%nat -> exists v', foldM (fun v i => t <- rd (seq b (length data)) i ;; y <- rd data i ;; wr v t y) (seq 0 (length data)) v = Ret v' /\ length v' = length v /\
  (forall i, (i < length data)%nat -> nth (b + i) v' 0 = nth i data 0) /\ forall j, ~ (b <= j < b + length data)%nat -> nth j v' 0 = nth j v 0.
Proof.
  intros v H. destruct (put_list_ok b data v H) as (v' & E & X). exists v'. split; auto. rewrite <- E. unfold put_list. rewrite (foldM_map_eq _ (fun arr i => x <- rd data i ;; wr arr (b + i) x) (fun i => i)). now rewrite map_id.
  intros st x X2. apply in_seq in X2. rewrite (rd_ok (seq b (length data)) x 0%nat) by (rewrite seq_length; lia). cbn [bind]. rewrite seq_nth by lia. auto.
Qed.

Section P.
Context (S : setting) (heap : nat -> nat -> nat -> nat -> list (list R)) (nf : nat) (cntf : nat -> nat) (OK : setting_ok S nf cntf).
Local Notation np := (length (pres S)).
Local Notation fes ce := (nth ce (c2f S) []).
Local Notation fd ce := (facet_dofs S cntf ce).

Lemma fe_lt ce fe : In fe (fes ce) -> (fe < nf)%nat.
Proof. intros H. destruct OK as (_ & _ & _ & _ & _ & _ & _ & A & _). now destruct (A ce fe H). Qed.
Lemma rd_fes ce : (ce < length (c2f S))%nat -> rd (c2f S) ce = Ret (fes ce).
Proof. intros H. apply rd_ok. auto. Qed.
Lemma n_fine_ok ce : (ce < length (c2f S))%nat -> n_fine S ce = Ret (length (fd ce)).
Proof.
  intros H. unfold n_fine. rewrite rd_fes by auto. cbn [bind]. unfold facet_dofs. destruct OK as (N & _). pose proof (fe_lt ce) as A.
  assert (G : forall l s, (forall fe, In fe l -> (fe < nf)%nat) -> foldM (fun s fe => n <- GetNDOF (f_off S) fe ;; Ret (s + n)%nat) l s = Ret (s + length (flat_map (fun fe => map (fun l => (dofs_before cntf fe + l)%nat) (seq 0 (cntf fe))) l))%nat).
  { induction l as [|fe l IH]; intros s B; cbn [foldM flat_map]. cbn. now rewrite Nat.add_0_r. rewrite (get_ndof nf cntf) by (auto; apply B; left; auto). cbn [bind]. rewrite IH by (intros; apply B; right; auto). rewrite app_length, map_length, seq_length. f_equal. lia. }
  apply (G (fes ce) 0%nat). auto.
Qed.
Lemma flips_ok ce fe : (ce < length (c2f S))%nat -> In fe (fes ce) -> flips S ce fe = Ret (negb (nth (fst (nth fe (f_edges S) (0, 0)%nat)) (v_map S) (-1) =? Z.of_nat (fst (nth ce (c_edges S) (0, 0)%nat)))%Z).
Proof.
  intros H X. destruct OK as (_ & _ & _ & L1 & L2 & _ & _ & A & _). destruct (A ce fe X) as (B1 & B2). unfold flips. rewrite (rd_ok (f_edges S) fe (0, 0)%nat) by lia. cbn [bind]. rewrite (rd_ok (c_edges S) ce (0, 0)%nat) by lia. cbn [bind]. rewrite (rd_ok (v_map S) _ (-1)%Z) by auto. reflexivity.
Qed.
Definition flipped (ce fe : nat) : bool := negb (nth (fst (nth fe (f_edges S) (0, 0)%nat)) (v_map S) (-1) =? Z.of_nat (fst (nth ce (c_edges S) (0, 0)%nat)))%Z.
Lemma orient_flipped ce fe : orient S ce fe = if flipped ce fe then -1 else 1.
Proof. unfold orient, flipped. destruct (_ =? _)%Z; auto. Qed.
Definition sgn (ce fe : nat) : R := if Bool.eqb (if Rlt_dec (flow_of S fe) 0 then true else false) (flipped ce fe) then 1 else -1.
Lemma sgn_flow ce fe : orient S ce fe * flow_of S fe * sgn ce fe = Rabs (flow_of S fe).
Proof. rewrite orient_flipped. unfold sgn. destruct (Rlt_dec (flow_of S fe) 0) as [L|L]. rewrite Rabs_left by auto. destruct (flipped ce fe); cbn; ring. rewrite Rabs_right by lra. destruct (flipped ce fe); cbn; ring. Qed.
Definition sp (ce : nat) : list R := flat_map (fun fe => sgn ce fe :: repeat 0 (cntf fe - 1)) (fes ce).
Definition ff (ce : nat) : list R := flat_map (fun fe => map (fun ll => orient S ce fe * (if (ll =? 0)%nat then flow_of S fe else 0)) (seq 0 (cntf fe))) (fes ce).
Lemma rd_flow fe : (fe < nf)%nat -> rd (f_flow S) fe = Ret (flow_of S fe).
Proof. intros H. destruct OK as (_ & _ & _ & _ & _ & L & _). apply rd_ok. lia. Qed.
Lemma special_ok ce : facet S ce -> special_col S ce (fes ce) = Ret (sp ce).
Proof.
  intros F. unfold special_col. rewrite (foldM_app_list _ (fun fe => sgn ce fe :: repeat 0 (cntf fe - 1))). reflexivity.
  intros acc fe X. destruct OK as (N & _ & _ & _ & _ & _ & _ & _ & D & _). rewrite (get_ndof nf cntf) by (auto; eapply fe_lt; eauto). cbn [bind]. specialize (D ce fe F X). destruct (cntf fe) as [|k]. lia. rewrite rd_flow by (eapply fe_lt; eauto). cbn [bind]. rewrite flips_ok by (auto; apply F). cbn [bind]. replace (Datatypes.S k - 1)%nat with k by lia. reflexivity.
Qed.
Lemma flow_ok ce : (ce < length (c2f S))%nat -> fine_flow S ce (fes ce) = Ret (ff ce).
Proof.
  intros F. unfold fine_flow. rewrite (foldM_app_list _ (fun fe => map (fun ll => orient S ce fe * (if (ll =? 0)%nat then flow_of S fe else 0)) (seq 0 (cntf fe)))). reflexivity.
  intros acc fe X. destruct OK as (N & _). rewrite rd_flow by (eapply fe_lt; eauto). cbn [bind]. rewrite flips_ok by auto. cbn [bind]. rewrite (get_ndof nf cntf) by (auto; eapply fe_lt; eauto). cbn [bind]. rewrite orient_flipped. reflexivity.
Qed.
Lemma pres_ok ce v : length v = dofs_before cntf nf -> pres_col S (fes ce) v = Ret (map (fun d => nth d v 0) (fd ce)).
Proof.
  intros L. destruct OK as (N & _). unfold pres_col. rewrite (foldM_app_list _ (fun fe => map (fun l => nth (dofs_before cntf fe + l) v 0) (seq 0 (cntf fe)))).
  - cbn [app]. f_equal. unfold facet_dofs. induction (fes ce) as [|fe l IH]; cbn; auto. rewrite map_app, IH, map_map. reflexivity.
  - intros acc fe X. rewrite (get_ndof nf cntf) by (auto; eapply fe_lt; eauto). cbn [bind]. rewrite (foldM_app_list _ (fun l => [nth (dofs_before cntf fe + l) v 0])). now rewrite flat_single.
    intros a l Hl. apply in_seq in Hl. assert (Hfe : (fe < nf)%nat) by (eapply fe_lt; eauto). rewrite (get_dof nf cntf) by auto. cbn [bind]. rewrite (rd_ok v _ 0). reflexivity. rewrite L. apply (dof_bound nf cntf fe l). repeat split; auto. lia.
Qed.
Lemma sp_length ce : facet S ce -> length (sp ce) = length (fd ce).
Proof. intros F. destruct OK as (_ & _ & _ & _ & _ & _ & _ & _ & D & _). unfold sp, facet_dofs. assert (G : forall l, (forall fe, In fe l -> (0 < cntf fe)%nat) -> length (flat_map (fun fe => sgn ce fe :: repeat 0 (cntf fe - 1)) l) = length (flat_map (fun fe => map (fun l => (dofs_before cntf fe + l)%nat) (seq 0 (cntf fe))) l)).
  { induction l as [|fe l IH]; intros H; cbn [flat_map]; auto. rewrite !app_length, IH by (intros; apply H; right; auto). specialize (H fe (or_introl eq_refl)). cbn. rewrite repeat_length, map_length, seq_length. lia. }
  apply G. intros fe X. now apply (D ce). Qed.
Lemma ff_length ce : length (ff ce) = length (fd ce).
Proof. unfold ff, facet_dofs. induction (fes ce) as [|fe l IH]; cbn; auto. rewrite !app_length, IH, !map_length. auto. Qed.
Lemma dot_zero_r x n : dot x (repeat 0 n) = 0.
Proof. revert x; induction n as [|n IH]; intros [|a x]; unfold dot in *; cbn; auto. rewrite IH. ring. Qed.
Lemma flow_special ce : facet S ce -> dot (ff ce) (sp ce) = sum (map (fun fe => Rabs (flow_of S fe)) (fes ce)).
Proof.
  intros F. destruct OK as (_ & _ & _ & _ & _ & _ & _ & _ & D & _). unfold ff, sp. assert (G : forall l, (forall fe, In fe l -> (0 < cntf fe)%nat) -> dot (flat_map (fun fe => map (fun ll => orient S ce fe * (if (ll =? 0)%nat then flow_of S fe else 0)) (seq 0 (cntf fe))) l) (flat_map (fun fe => sgn ce fe :: repeat 0 (cntf fe - 1)) l) = sum (map (fun fe => Rabs (flow_of S fe)) l)).
  { induction l as [|fe l IH]; intros H; cbn [flat_map map]. reflexivity. assert (P := H fe (or_introl eq_refl)). rewrite dot_app by (rewrite map_length, seq_length; cbn; rewrite repeat_length; lia). rewrite IH by (intros; apply H; right; auto). unfold sum. cbn [fold_right]. f_equal.
    destruct (cntf fe) as [|k]. lia. replace (Datatypes.S k - 1)%nat with k by lia. cbn [seq map]. cbn [Nat.eqb]. unfold dot. cbn [combine map fold_right fst snd]. fold (dot (map (fun ll => orient S ce fe * (if (ll =? 0)%nat then flow_of S fe else 0)) (seq 1 k)) (repeat 0 k)). rewrite dot_zero_r. rewrite <- (sgn_flow ce). ring. }
  apply G. intros fe X. now apply (D ce).
Qed.
Lemma flow_pos ce : facet S ce -> 0 < sum (map (fun fe => Rabs (flow_of S fe)) (fes ce)).
Proof.
  intros F. destruct OK as (_ & _ & _ & _ & _ & _ & _ & _ & _ & E). destruct (E ce F) as (fe & X & NZ).
  assert (P : forall l, 0 <= sum (map (fun fe => Rabs (flow_of S fe)) l)). { induction l as [|a l IH]; unfold sum in *; cbn. lra. pose proof (Rabs_pos (flow_of S a)). lra. }
  induction (fes ce) as [|a l IH]. easy. unfold sum in *. cbn. pose proof (Rabs_pos (flow_of S a)). specialize (P l). destruct X as [->|X]. pose proof (Rabs_pos_lt _ NZ). lra. specialize (IH X). lra.
Qed.
(** the matrix V of a facet *)
Definition V (ce : nat) : list (list R) := sp ce :: map (fun v => map (fun d => nth d v 0) (fd ce)) (pres S).
Lemma V_matrix ce : facet S ce -> matrix (length (fd ce)) (1 + np) (V ce).
Proof.
  intros F. split. unfold V. cbn. now rewrite map_length. intros [|j] Hj; cbn. now apply sp_length. rewrite (nth_indep _ [] (map (fun d => nth d [] 0) (fd ce))) by (rewrite map_length; lia). rewrite (map_nth (fun v => map (fun d => nth d v 0) (fd ce))). apply map_length.
Qed.
Lemma V_flow ce : facet S ce -> product (length (fd ce)) (ff ce) (col (V ce) 0) <> 0.
Proof. intros F. cbn. rewrite <- dot_product by (try apply ff_length; now apply sp_length). rewrite flow_special by auto. pose proof (flow_pos ce F). lra. Qed.
Lemma V_not_zero ce : facet S ce -> not_zero (length (fd ce)) 1 (V ce).
Proof.
  intros F l Hl. destruct l; [|lia]. intros E. apply (V_flow ce F). cbn in E |- *. assert (Z : forall i, (i < length (fd ce))%nat -> nth i (sp ce) 0 = 0).
  { revert E. unfold product. generalize (length (fd ce)). induction n as [|n IH]; cbn; intros E i Hi. lia. assert (0 <= total (fun i => nth i (sp ce) 0 * nth i (sp ce) 0) n) by (apply total_nonneg; intros; apply Rle_0_sqr). pose proof (Rle_0_sqr (nth n (sp ce) 0)) as Q. unfold Rsqr in Q. destruct (Nat.eq_dec i n) as [->|N]. nra. apply IH; [lra|lia]. }
  apply total_zero. intros i Hi. rewrite Z by auto. ring.
Qed.
(** block *)
Context (HH : forall tag ce h w, matrix h w (heap tag ce h w)).
Lemma block_ok ce : facet S ce -> exists m P W, block S heap ce = Ret (length (fd ce), m, P, W) /\ factorisation (length (fd ce)) (1 + np) 1 (V ce) m P W /\ (forall j, (1 <= j < m)%nat -> product (length (fd ce)) (ff ce) (col P j) = 0).
Proof.
  intros F. unfold block. rewrite rd_fes by apply F. cbn [bind]. rewrite n_fine_ok by apply F. cbn [bind]. rewrite special_ok by auto. cbn [bind].
  rewrite (foldM_app_list _ (fun v => [map (fun d => nth d v 0) (fd ce)])). 2:{ intros acc v X. destruct OK as (_ & L & _). rewrite pres_ok by now apply L. reflexivity. } rewrite flat_single. cbn [bind app]. rewrite flow_ok by apply F. cbn [bind].
  destruct (C103_zero_flow (length (fd ce)) (1 + np) 1 (V ce) (heap 0 ce (length (fd ce)) (1 + np)) (heap 1 ce (1 + np) (1 + np)) (ff ce)) as (m & P & W & _ & _ & E & X1 & X2 & _); auto using V_matrix, V_not_zero, ff_length, V_flow. lia. fold (V ce). rewrite E. cbn [bind]. exists m, P, W. auto.
Qed.

(** ** the loops *)
Definition blk (ce : nat) : nat * nat * list (list R) * list (list R) := match block S heap ce with Ret b => b | Err _ => (0%nat, 0%nat, [], []) end.
Definition bm (ce : nat) : nat := snd (fst (fst (blk ce))).
Definition bP (ce : nat) : list (list R) := snd (fst (blk ce)).
Definition bW (ce : nat) : list (list R) := snd (blk ce).
Local Notation hh ce := (length (fd ce)).
Lemma blk_ok ce : facet S ce -> block S heap ce = Ret (hh ce, bm ce, bP ce, bW ce) /\ factorisation (hh ce) (1 + np) 1 (V ce) (bm ce) (bP ce) (bW ce) /\ (forall j, (1 <= j < bm ce)%nat -> product (hh ce) (ff ce) (col (bP ce) j) = 0).
Proof. intros F. destruct (block_ok ce F) as (m & P & W & E & X1 & X2). unfold bm, bP, bW, blk. rewrite E. cbn [fst snd]. auto. Qed.
Lemma bm_bound ce : facet S ce -> (1 <= bm ce <= 1 + np)%nat.
Proof. intros F. destruct (blk_ok ce F) as (_ & (B & _) & _). exact B. Qed.
Local Notation nc := (length (c2f S)).
Context (order : list nat) (HO : Permutation order (seq 0 nc)).
Lemma order_nodup : NoDup order.
Proof. apply (Permutation_NoDup (Permutation_sym HO)), seq_NoDup. Qed.
Lemma order_in ce : In ce order <-> (ce < nc)%nat.
Proof. split; intros H. apply (Permutation_in _ HO) in H. apply in_seq in H. lia. apply (Permutation_in _ (Permutation_sym HO)). apply in_seq. lia. Qed.
Definition is_f (ce : nat) : bool := nth ce (dofed S) false.
Lemma rd_dofed ce : (ce < nc)%nat -> rd (dofed S) ce = Ret (is_f ce).
Proof. intros H. destruct OK as (_ & _ & L & _). apply rd_ok. lia. Qed.
Definition sz (ce : nat) : nat := (1 + (1 + np) * np + hh ce * (1 + np))%nat.
Definition fits (offs : list nat) (tot : nat) (done : list nat) : Prop :=
  (forall a, In a done -> is_f a = true -> (nth a offs 0 + sz a <= tot)%nat) /\
  (forall a b, In a done -> In b done -> a <> b -> is_f a = true -> is_f b = true -> (nth a offs 0 + sz a <= nth b offs 0 \/ nth b offs 0 + sz b <= nth a offs 0)%nat).
Lemma sizes_ok : exists offs tot, computeCFBufferSize S order = Ret (offs, tot) /\ length offs = nc /\ fits offs tot order.
Proof.
  unfold computeCFBufferSize. cbv zeta. destruct (foldM_inv (fun st ce => let (offs, tot) := st : list nat * nat in
    offs <- wr offs ce tot ;; d <- rd (dofed S) ce ;;
    if d : bool then n <- n_fine S ce ;; Ret (offs, (tot + (1 + (1 + np) * np + n * (1 + np)))%nat) else Ret (offs, tot)) (fun done st => length (fst st) = nc /\ fits (fst st) (snd st) done) order (repeat 0%nat nc, 0%nat)) as ((offs & tot) & E & L & F).
  - cbn. split. apply repeat_length. split; intros a; easy.
  - intros done x rest (offs & tot) E (L & F1 & F2). cbn [fst snd] in *. destruct (prefix_in _ _ _ _ E order_nodup) as (X & ND). apply order_in in X. rewrite wr_ok by lia. cbn [bind]. rewrite rd_dofed by auto. cbn [bind].
    assert (NE : forall a, In a done -> a <> x) by (intros a Ha ->; auto).
    destruct (is_f x) eqn:D.
    + rewrite n_fine_ok by auto. cbn [bind]. eexists. split. reflexivity. cbn [fst snd]. split. now rewrite upd_length. fold (sz x). split.
      * intros a Ha Fa. apply in_app_or in Ha as [Ha|[<-|[]]]. rewrite nth_upd_neq by (intros C; apply (NE a Ha); auto). specialize (F1 a Ha Fa). lia. rewrite nth_upd_eq by lia. lia.
      * intros a b Ha Hb N Fa Fb. apply in_app_or in Ha as [Ha|[<-|[]]]; apply in_app_or in Hb as [Hb|[<-|[]]]; try easy.
        -- rewrite !nth_upd_neq by (first [exact (fun C => NE a Ha (eq_sym C))|exact (fun C => NE b Hb (eq_sym C))]). now apply F2.
        -- rewrite nth_upd_neq by auto. rewrite nth_upd_eq by lia. left. now apply F1.
        -- rewrite nth_upd_eq by lia. rewrite nth_upd_neq by auto. right. now apply F1.
    + eexists. split. reflexivity. cbn [fst snd]. split. now rewrite upd_length. split.
      * intros a Ha Fa. apply in_app_or in Ha as [Ha|[<-|[]]]; [|congruence]. rewrite nth_upd_neq by (intros C; apply (NE a Ha); auto). auto.
      * intros a b Ha Hb N Fa Fb. apply in_app_or in Ha as [Ha|[<-|[]]]; [|congruence]. apply in_app_or in Hb as [Hb|[<-|[]]]; [|congruence]. rewrite !nth_upd_neq by (first [exact (fun C => NE a Ha (eq_sym C))|exact (fun C => NE b Hb (eq_sym C))]). now apply F2.
  - exists offs, tot. auto.
Qed.
Definition cnt (ce : nat) : nat := if is_f ce then bm ce else 0%nat.
Definition chk (ce : nat) : list R := chunk S (hh ce) (bm ce) (bP ce) (bW ce).
Lemma chk_length ce : length (chk ce) = (1 + (hh ce * bm ce + np * bm ce))%nat.
Proof. unfold chk, chunk. cbn [length]. rewrite app_length. rewrite (grid_length (fun k j => at2 (bP ce) k j)), (grid_length (fun j k => at2 (bW ce) k (1 + j))). lia. Qed.
Lemma chk_fits ce : facet S ce -> (length (chk ce) <= sz ce)%nat.
Proof. intros F. rewrite chk_length. unfold sz. pose proof (bm_bound ce F). nia. Qed.
Lemma chk_P ce i t : (i < hh ce)%nat -> (t < bm ce)%nat -> nth (1 + i * bm ce + t) (chk ce) 0 = at2 (bP ce) i t.
Proof. intros Hi Ht. unfold chk, chunk. cbn [plus nth]. rewrite app_nth1. apply (grid_nth (fun k j => at2 (bP ce) k j)); auto. rewrite (grid_length (fun k j => at2 (bP ce) k j)). nia. Qed.
Lemma chk_W ce j t : (j < np)%nat -> (t < bm ce)%nat -> nth (1 + hh ce * bm ce + j * bm ce + t) (chk ce) 0 = at2 (bW ce) t (1 + j).
Proof. intros Hj Ht. unfold chk, chunk. cbn [plus nth]. rewrite app_nth2; rewrite (grid_length (fun k j => at2 (bP ce) k j)). 2: nia. replace (hh ce * bm ce + j * bm ce + t - hh ce * bm ce)%nat with (j * bm ce + t)%nat by lia. apply (grid_nth (fun j k => at2 (bW ce) k (1 + j))); auto. Qed.
Definition holds (offs : list nat) (buf : list R) (a : nat) : Prop := forall i, (i < length (chk a))%nat -> nth (nth a offs 0%nat + i) buf 0 = nth i (chk a) 0.
Lemma blocks_ok offs tot : length offs = nc -> fits offs tot order -> exists cofs buf, computeCFProlBlocks S heap order offs (Initialize nc) (repeat 0 tot) = Ret (cofs, buf) /\
  length cofs = Datatypes.S nc /\ nth 0 cofs 0%nat = 0%nat /\ (forall ce, (ce < nc)%nat -> nth (Datatypes.S ce) cofs 0%nat = cnt ce) /\ length buf = tot /\ forall a, facet S a -> holds offs buf a.
Proof.
  intros Lo (F1 & F2). unfold computeCFProlBlocks. cbv zeta.
  destruct (foldM_inv (fun st ce => let (cofs, buf) := st : list nat * list R in
    d <- rd (dofed S) ce ;;
    if d : bool then
      b <- block S heap ce ;;
      match b with (h, m, P, W) => cofs <- do_call cofs (SetNDOF ce m) ;; o <- rd offs ce ;; buf <- put_list o (chunk S h m P W) buf ;; Ret (cofs, buf) end
    else Ret (cofs, buf)) (fun done st => length (fst st) = Datatypes.S nc /\ nth 0 (fst st) 0%nat = 0%nat /\ (forall ce, (ce < nc)%nat -> In ce done -> nth (Datatypes.S ce) (fst st) 0%nat = cnt ce) /\ (forall ce, ~ In ce done -> nth (Datatypes.S ce) (fst st) 0%nat = 0%nat) /\ length (snd st) = tot /\ forall a, In a done -> facet S a -> holds offs (snd st) a) order (Initialize nc, repeat 0 tot)) as ((cofs & buf) & E & A1 & A2 & A3 & A4 & A5 & A6).
  - cbn [fst snd]. unfold Initialize. rewrite !repeat_length. split; auto. split. apply rep_nth. split. easy. split. intros. apply rep_nth. split; auto. easy.
  - intros done x rest (cofs & buf) E (A1 & A2 & A3 & A4 & A5 & A6). cbn [fst snd] in *. destruct (prefix_in _ _ _ _ E order_nodup) as (X & ND). pose proof X as Xo. apply order_in in X. rewrite rd_dofed by auto. cbn [bind].
    destruct (is_f x) eqn:D.
    + assert (Fx : facet S x) by (split; auto). destruct (blk_ok x Fx) as (Eb & _). rewrite Eb. cbn [bind]. cbn [do_call]. rewrite wr_ok by lia. cbn [bind]. rewrite (rd_ok offs x 0%nat) by lia. cbn [bind]. fold (chk x).
      pose proof (chk_fits x Fx) as CF. pose proof (F1 x Xo D) as B. destruct (put_list_ok (nth x offs 0%nat) (chk x) buf ltac:(lia)) as (buf' & Ep & L' & P1 & P2). rewrite Ep. cbn [bind]. eexists. split. reflexivity. cbn [fst snd]. split. now rewrite upd_length. split. rewrite nth_upd_neq by lia. auto. split.
      { intros ce Hce Hi. apply in_app_or in Hi as [Hi|[<-|[]]]. rewrite nth_upd_neq by (intros C; injection C as ->; auto). auto. rewrite nth_upd_eq by lia. unfold cnt. now rewrite D. } split.
      { intros ce Hi. rewrite nth_upd_neq by (intros C; injection C as ->; apply Hi; apply in_or_app; right; now left). apply A4. intros C. apply Hi. apply in_or_app. now left. } split. lia.
      intros a Ha Fa. apply in_app_or in Ha as [Ha|[<-|[]]]; [|exact P1]. intros i Hi. rewrite P2. now apply A6. pose proof (chk_fits a Fa) as CA. assert (Na : a <> x) by (intros ->; auto). assert (Ao : In a order) by (rewrite E; apply in_or_app; now left). destruct (F2 a x Ao Xo Na (proj2 Fa) D); lia.
    + eexists. split. reflexivity. cbn [fst snd]. split; auto. split; auto. split. { intros ce Hce Hi. apply in_app_or in Hi as [Hi|[<-|[]]]. auto. unfold cnt. rewrite D. now apply A4. } split. { intros ce Hi. apply A4. intros C. apply Hi. apply in_or_app. now left. } split; auto.
      intros a Ha Fa. apply in_app_or in Ha as [Ha|[<-|[]]]. now apply A6. destruct Fa. unfold is_f in D. congruence.
  - cbn [fst snd] in *. exists cofs, buf. split; auto. split; auto. split; auto. split. intros ce Hce. apply A3; auto. now apply order_in. split; auto. intros a Fa. apply A6; auto. apply order_in. apply Fa.
Qed.
Lemma to_int_ok h : to_int (INR h) = h.
Proof. unfold to_int. rewrite Int_part_INR. apply Nat2Z.id. Qed.

Context (offs cofs : list nat) (buf : list R) (tot : nat) (Lo : length offs = nc) (FT : fits offs tot order) (NC : numbered nc cnt cofs) (Lb : length buf = tot) (HB : forall a, facet S a -> holds offs buf a).
Local Notation bef ce := (dofs_before cnt ce).
Lemma cnt_f ce : facet S ce -> cnt ce = bm ce.
Proof. intros (_ & F). unfold cnt, is_f. now rewrite F. Qed.
Lemma off_bound ce : facet S ce -> (nth ce offs 0%nat + sz ce <= tot)%nat.
Proof. intros F. apply FT. apply order_in. apply F. apply F. Qed.
Lemma rd_chunk ce i : facet S ce -> (i < length (chk ce))%nat -> rd buf (nth ce offs 0%nat + i) = Ret (nth i (chk ce) 0).
Proof. intros F Hi. pose proof (off_bound ce F). pose proof (chk_fits ce F). rewrite (rd_ok buf _ 0) by lia. f_equal. now apply HB. Qed.
Lemma bef_bound ce : (ce < nc)%nat -> (bef ce + cnt ce <= bef nc)%nat.
Proof. intros H. pose proof (before_le cnt (Datatypes.S ce) nc H) as B. rewrite before_S in B. lia. Qed.
Lemma bef_disj a b : a <> b -> (a < nc)%nat -> (b < nc)%nat -> (bef a + cnt a <= bef b \/ bef b + cnt b <= bef a)%nat.
Proof. intros N Ha Hb. rewrite <- !before_S. destruct (Nat.lt_total a b) as [L|[L|L]]; [left|lia|right]; apply before_le; lia. Qed.
Definition vec_done (vecs : list (list R)) (done : list nat) : Prop := length vecs = np /\ (forall k, (k < np)%nat -> length (nth k vecs []) = bef nc) /\
  forall a, In a done -> facet S a -> forall k t, (k < np)%nat -> (t < cnt a)%nat -> nth (bef a + t) (nth k vecs []) 0 = at2 (bW a) t (1 + k).
Lemma vecs_ok : exists vecs, read_vecs S order offs cofs buf (repeat (repeat 0 (bef nc)) np) = Ret vecs /\ vec_done vecs order.
Proof.
  unfold read_vecs. cbv zeta. match goal with |- context [foldM ?F order ?v0] => destruct (foldM_inv F (fun done vecs => vec_done vecs done) order v0) as (vecs & E & D) end.
  - split. apply repeat_length. split. intros k Hk. rewrite (nth_indep _ [] (repeat 0 (bef nc))) by (rewrite repeat_length; lia). rewrite nth_repeat. apply repeat_length. easy.
  - intros done x rest vecs E (L1 & L2 & A). destruct (prefix_in _ _ _ _ E order_nodup) as (X & ND). apply order_in in X. rewrite rd_dofed by auto. cbn [bind]. destruct (is_f x) eqn:D.
    2:{ eexists. split. reflexivity. split; auto. split; auto. intros a Ha Fa. apply in_app_or in Ha as [Ha|[<-|[]]]. auto. destruct Fa. unfold is_f in D. congruence. }
    assert (Fx : facet S x) by (split; auto). assert (CB := cnt_f x Fx). rewrite (get_ndof nc cnt) by auto. cbn [bind]. rewrite (rd_ok offs x 0%nat) by lia. cbn [bind].
    replace (rd buf (nth x offs 0%nat)) with (rd buf (nth x offs 0 + 0)%nat) by (f_equal; lia). rewrite rd_chunk by (auto; rewrite chk_length; lia). cbn [bind]. change (nth 0 (chk x) 0) with (INR (hh x)). rewrite to_int_ok. rewrite (get_nrs nc cnt cofs NC) by auto. cbn [bind].
    match goal with |- context [foldM ?F (seq 0 np) ?v0] => destruct (foldM_inv F (fun ks st => snd st = (nth x offs 0 + 1 + hh x * cnt x + length ks * cnt x)%nat /\ vec_done (fst st) done /\ forall k t, (k < length ks)%nat -> (t < cnt x)%nat -> nth (bef x + t) (nth k (fst st) []) 0 = at2 (bW x) t (1 + k)) (seq 0 np) v0) as ((vecs' & bo) & E2 & _ & (M1 & M2 & M3) & M4) end.
    + cbn. split. lia. split. split; auto. intros; lia.
    + intros ks k r2 (vecs2 & bo) E2 (B1 & (B2 & B3 & B4) & B5). cbn [fst snd] in *. destruct (seq_prefix _ _ _ _ _ E2) as (_ & -> & Hk). cbn [plus]. set (k := length ks) in *. subst bo.
      rewrite (collect _ (fun i => at2 (bW x) i (1 + k))). 2:{ intros i Hi. apply in_seq in Hi. rewrite CB. replace (nth x offs 0 + 1 + hh x * bm x + k * bm x + i)%nat with (nth x offs 0 + (1 + hh x * bm x + k * bm x + i))%nat by lia. rewrite rd_chunk by (auto; rewrite chk_length; nia). now rewrite chk_W by lia. }
      cbn [bind]. rewrite (rd_ok vecs2 k []) by lia. cbn [bind]. set (data := map (fun i => at2 (bW x) i (1 + k)) (seq 0 (cnt x))). assert (LD : length data = cnt x) by (unfold data; now rewrite map_length, seq_length).
      pose proof (bef_bound x X) as BB. destruct (put_seq (bef x) data (nth k vecs2 [])) as (v' & Ev & Lv & P1 & P2). rewrite B3 by auto. lia. rewrite LD in *. rewrite seq_length. rewrite Ev. cbn [bind]. rewrite wr_ok by lia. cbn [bind]. eexists. split. reflexivity. cbn [fst snd]. split. rewrite app_length. cbn. unfold k. lia. split.
      * split. now rewrite upd_length. split. { intros j Hj. destruct (Nat.eq_dec j k) as [->|Nj]. rewrite nth_upd_eq by lia. rewrite Lv. auto. rewrite nth_upd_neq by lia. auto. }
        intros a Ha Fa j t Hj Ht. assert (Na : a <> x) by (intros ->; auto). destruct (Nat.eq_dec j k) as [->|Nj]. rewrite nth_upd_eq by lia. rewrite P2. auto. pose proof (bef_disj a x Na (proj1 Fa) X). lia. rewrite nth_upd_neq by lia. auto.
      * intros j t Hj Ht. rewrite app_length in Hj. cbn in Hj. destruct (Nat.eq_dec j k) as [->|Nj]. rewrite nth_upd_eq by lia. rewrite P1 by auto. unfold data. rewrite (nth_indep _ 0 (at2 (bW x) 0 (1 + k))) by (rewrite map_length, seq_length; lia). rewrite (map_nth (fun i => at2 (bW x) i (1 + k))), seq_nth by lia. reflexivity. rewrite nth_upd_neq by lia. apply B5; auto. fold k. lia.
    + rewrite E2. cbn [bind fst]. eexists. split. reflexivity. cbn [fst snd] in *. rewrite seq_length in M4. split; auto. split; auto. intros a Ha Fa k t Hk Ht. apply in_app_or in Ha as [Ha|[<-|[]]]; auto.
  - exists vecs. auto.
Qed.
Lemma fd_nodup ce : NoDup (fd ce).
Proof.
  destruct OK as (_ & _ & _ & _ & _ & _ & ND & _). pose proof (rows_nodup _ ND ce) as R. unfold facet_dofs. assert (A := fe_lt ce). revert A R. generalize (fes ce). clear. induction l as [|fe l IH]; intros A R; cbn. constructor. inversion R as [|? ? R1 R2]; subst. 
  assert (G : forall (a b : list nat), NoDup a -> NoDup b -> (forall x, In x a -> ~ In x b) -> NoDup (a ++ b)). { clear. induction a as [|x a IH]; intros b Na Nb D; cbn; auto. inversion Na; subst. constructor. rewrite in_app_iff. intros [C|C]; auto. apply (D x); auto. now left. apply IH; auto. intros y Hy. apply D. now right. }
  apply G. { rewrite <- seq_as_map. apply seq_NoDup. } { apply IH; auto. intros; apply A; now right. }
  intros d Hd C. apply in_map_iff in Hd as (l1 & <- & Hl1). apply in_flat_map in C as (fe' & Hf & Hl2). apply in_map_iff in Hl2 as (l2 & E & Hl2). apply in_seq in Hl1. apply in_seq in Hl2.
  assert (D1 : dof_of nf cntf fe l1 (dofs_before cntf fe + l1)). { split. apply A. now left. split. lia. auto. } assert (D2 : dof_of nf cntf fe' l2 (dofs_before cntf fe + l1)). { split. apply A. now right. split. lia. auto. }
  destruct (dof_unique _ _ _ _ _ _ _ D1 D2) as (-> & _). auto.
Qed.
Lemma fd_disj a b d : In d (fd a) -> In d (fd b) -> a = b.
Proof.
  intros Ha Hb. unfold facet_dofs in Ha, Hb. apply in_flat_map in Ha as (fa & Fa & Ha). apply in_flat_map in Hb as (fb & Fb & Hb). apply in_map_iff in Ha as (la & Ea & Ha). apply in_map_iff in Hb as (lb & Eb & Hb). apply in_seq in Ha. apply in_seq in Hb.
  assert (D1 : dof_of nf cntf fa la d). { split. eapply fe_lt; eauto. split. lia. auto. } assert (D2 : dof_of nf cntf fb lb d). { split. eapply fe_lt; eauto. split. lia. auto. } destruct (dof_unique _ _ _ _ _ _ _ D1 D2) as (-> & _).
  destruct OK as (_ & _ & _ & _ & _ & _ & ND & _). exact (rows_disjoint _ ND a b fb Fa Fb).
Qed.
Lemma fd_bound ce d : In d (fd ce) -> (d < dofs_before cntf nf)%nat.
Proof. intros H. apply in_flat_map in H as (fe & Hf & H). apply in_map_iff in H as (l & <- & Hl). apply in_seq in Hl. apply (dof_bound nf cntf fe l). split. eapply fe_lt; eauto. split; auto. lia. Qed.
Lemma prol_entry_ok ce i t : facet S ce -> (i < hh ce)%nat -> (t < cnt ce)%nat -> prol_entry offs cofs buf ce i t = Ret (at2 (bP ce) i t).
Proof.
  intros F Hi Ht. unfold prol_entry. rewrite (rd_ok offs ce 0%nat) by (rewrite Lo; apply F). cbn [bind]. rewrite (get_ndof nc cnt) by (auto; apply F). cbn [bind]. rewrite (cnt_f ce F) in *. replace (nth ce offs 0 + 1 + i * bm ce + t)%nat with (nth ce offs 0 + (1 + i * bm ce + t))%nat by lia. rewrite rd_chunk by (auto; rewrite chk_length; nia). now rewrite chk_P.
Qed.
Definition row_of (ce i : nat) : list nat * list R := (seq (bef ce) (cnt ce), map (fun t => at2 (bP ce) i t) (seq 0 (cnt ce))).
Definition prol_done (prol : list (list nat * list R)) (flow : list R) (done : list nat) : Prop := length prol = dofs_before cntf nf /\ length flow = nc /\
  forall a, In a done -> facet S a -> (forall i, (i < hh a)%nat -> nth (nth i (fd a) 0%nat) prol ([], []) = row_of a i) /\ nth a flow 0 = dot (map (fun i => at2 (bP a) i 0) (seq 0 (hh a))) (ff a).
Lemma prol_ok : exists prol flow, prol_rows S order offs cofs buf (repeat ([], []) (dofs_before cntf nf), repeat 0 nc) = Ret (prol, flow) /\ prol_done prol flow order.
Proof.
  unfold prol_rows. match goal with |- context [foldM ?F order ?v0] => destruct (foldM_inv F (fun done st => prol_done (fst st) (snd st) done) order v0) as ((prol & flow) & E & D) end.
  - cbn. split. apply repeat_length. split. apply repeat_length. easy.
  - intros done x rest (prol & flow) E (L1 & L2 & A). cbn [fst snd] in *. destruct (prefix_in _ _ _ _ E order_nodup) as (X & ND). apply order_in in X. rewrite rd_dofed by auto. cbn [bind]. destruct (is_f x) eqn:D.
    2:{ eexists. split. reflexivity. split; auto. split; auto. intros a Ha Fa. apply in_app_or in Ha as [Ha|[<-|[]]]. auto. destruct Fa. unfold is_f in D. congruence. }
    assert (Fx : facet S x) by (split; auto). rewrite rd_fes by auto. cbn [bind]. rewrite (get_ndof nc cnt) by auto. cbn [bind]. rewrite (get_nrs nc cnt cofs NC) by auto. cbn [bind]. rewrite flow_ok by auto. cbn [bind].
    set (G := fun (st : list (list nat * list R) * nat) d => let (prol, row) := st in vals <- foldM (fun vs t => y <- prol_entry offs cofs buf x row t ;; Ret (vs ++ [y])) (seq 0 (cnt x)) [] ;; prol <- wr prol d (seq (bef x) (cnt x), vals) ;; Ret (prol, Datatypes.S row)).
    match goal with |- context [foldM ?F (fes x) ?v0] => rewrite (foldM_flat F G (fun fe => map (fun l => (dofs_before cntf fe + l)%nat) (seq 0 (cntf fe))) (fes x)) end.
    2:{ intros st fe Hfe. destruct OK as (N & _). rewrite (get_ndof nf cntf) by (auto; eapply fe_lt; eauto). cbn [bind]. apply foldM_map_eq. intros (p & row) l Hl. rewrite (get_dof nf cntf) by (auto; eapply fe_lt; eauto). reflexivity. }
    fold (facet_dofs S cntf x).
    destruct (foldM_inv G (fun ds st => snd st = length ds /\ length (fst st) = dofs_before cntf nf /\ (forall i, (i < length ds)%nat -> nth (nth i (fd x) 0%nat) (fst st) ([], []) = row_of x i) /\ forall d, ~ In d (fd x) -> nth d (fst st) ([], []) = nth d prol ([], [])) (fd x) (prol, 0%nat)) as ((prol' & row) & E2 & Hr & L3 & B1 & B2).
    + cbn. repeat split; auto. intros; lia.
    + intros ds d r2 (pr & row) E2 (Hrw & L3 & B1 & B2). cbn [fst snd] in *. subst row. destruct (prefix_in _ _ _ _ E2 (fd_nodup x)) as (Hd & Nd). unfold G.
      assert (Hrow : (length ds < hh x)%nat) by (rewrite E2, app_length; cbn; lia). assert (Er : nth (length ds) (fd x) 0%nat = d) by (rewrite E2, app_nth2, Nat.sub_diag; auto).
      rewrite (collect _ (fun t => at2 (bP x) (length ds) t)) by (intros t Ht; apply in_seq in Ht; apply prol_entry_ok; auto; lia). cbn [bind]. rewrite wr_ok by (rewrite L3; eapply fd_bound; eauto). cbn [bind]. eexists. split. reflexivity. cbn [fst snd]. split. rewrite app_length. cbn. lia. split. now rewrite upd_length. split.
      * intros i Hi. rewrite app_length in Hi. cbn in Hi. destruct (Nat.eq_dec i (length ds)) as [->|N]. rewrite Er, nth_upd_eq by (rewrite L3; eapply fd_bound; eauto). reflexivity.
        rewrite nth_upd_neq. apply B1. lia. intros C. apply N. pose proof (fd_nodup x) as NDx. rewrite (NoDup_nth _ 0%nat) in NDx. apply (NDx i (length ds)); [lia|lia|]. first [congruence|rewrite Er; congruence|rewrite Er; auto].
      * intros d' Hd'. rewrite nth_upd_neq by (intros ->; auto). auto.
    + rewrite E2. cbn [bind snd fst]. cbn [fst snd] in *. subst row. destruct (bm_bound x Fx) as (BM & _). rewrite (collect _ (fun i => at2 (bP x) i 0)) by (intros i Hi; apply in_seq in Hi; apply prol_entry_ok; auto; try rewrite (cnt_f x Fx); lia). cbn [bind]. rewrite wr_ok by lia. cbn [bind]. eexists. split. reflexivity. cbn [fst snd]. split; auto. split. now rewrite upd_length.
      intros a Ha Fa. apply in_app_or in Ha as [Ha|[<-|[]]].
      * assert (Na : a <> x) by (intros ->; auto). rewrite nth_upd_neq by auto. destruct (A a Ha Fa) as (A1 & A2). split; auto. intros i Hi. rewrite B2. auto. intros C. apply Na. apply (fd_disj a x (nth i (fd a) 0%nat)); auto. now apply nth_In.
      * rewrite nth_upd_eq by lia. split; auto.
  - exists prol, flow. auto.
Qed.
(** ** what the pieces mean *)
Context (prol : list (list nat * list R)) (flow : list R) (PD : prol_done prol flow order).
Lemma fd_row ce i : facet S ce -> (i < hh ce)%nat -> nth (nth i (fd ce) 0%nat) prol ([], []) = row_of ce i.
Proof. intros F Hi. destruct PD as (_ & _ & A). apply (A ce); auto. apply order_in. apply F. Qed.
Lemma prol_at ce i x : facet S ce -> (i < hh ce)%nat -> prolongate prol x (nth i (fd ce) 0%nat) = total (fun t => at2 (bP ce) i t * x (bef ce + t)%nat) (bm ce).
Proof. intros F Hi. unfold prolongate. rewrite fd_row by auto. unfold row_of. rewrite apply_seq. now rewrite cnt_f. Qed.
Lemma prol_unit ce i t : facet S ce -> (i < hh ce)%nat -> (t < bm ce)%nat -> prolongate prol (unit_vec (bef ce + t)) (nth i (fd ce) 0%nat) = at2 (bP ce) i t.
Proof.
  intros F Hi Ht. rewrite prol_at by auto. revert Ht. generalize (bm ce). unfold unit_vec. assert (Z : forall n, (n <= t)%nat -> total (fun t0 => at2 (bP ce) i t0 * (if (bef ce + t0 =? bef ce + t)%nat then 1 else 0)) n = 0).
  { induction n as [|n IH]; cbn [total]; intros Hn. auto. rewrite IH by lia. destruct (Nat.eqb_spec (bef ce + n) (bef ce + t)). lia. ring. }
  induction n as [|n IH]; intros Ht. lia. cbn [total]. destruct (Nat.eqb_spec (bef ce + n) (bef ce + t)) as [X|X]. assert (n = t) by lia. subst n. rewrite Z by lia. ring. rewrite IH by lia. ring.
Qed.
Lemma map_nth_seq (l : list nat) : map (fun i => nth i l 0%nat) (seq 0 (length l)) = l.
Proof. induction l as [|x l IH]. reflexivity. cbn [length seq map nth]. f_equal. rewrite <- seq_shift, map_map. exact IH. Qed.
Lemma size_on_fd ce f : size_on (fd ce) f = sqrt (total (fun i => f (nth i (fd ce) 0%nat) * f (nth i (fd ce) 0%nat)) (hh ce)).
Proof.
  unfold size_on. f_equal. rewrite sum_total, map_length. apply total_ext. intros i Hi. rewrite (nth_indep _ 0 ((fun d => f d * f d) 0%nat)) by (now rewrite map_length). now rewrite (map_nth (fun d => f d * f d)).
Qed.
Lemma V_col ce k i : (k < np)%nat -> (i < hh ce)%nat -> entry (V ce) i (1 + k) = nth (nth i (fd ce) 0%nat) (nth k (pres S) []) 0.
Proof.
  intros Hk Hi. unfold entry, V. cbn [plus nth]. rewrite (nth_indep _ [] (map (fun d => nth d [] 0) (fd ce))) by (now rewrite map_length). rewrite (map_nth (fun v => map (fun d => nth d v 0) (fd ce))). rewrite (nth_indep _ 0 (nth 0 (nth k (pres S) []) 0)) by (now rewrite map_length). now rewrite (map_nth (fun d => nth d (nth k (pres S) []) 0)).
Qed.
Lemma kept vecs ce k : vec_done vecs order -> facet S ce -> (k < np)%nat ->
  size_on (fd ce) (fun d => nth d (nth k (pres S) []) 0 - prolongate prol (fun c => nth c (nth k vecs []) 0) d) <= / 100000000 * size_on (fd ce) (fun d => nth d (nth k (pres S) []) 0).
Proof.
  intros VD F Hk. destruct (blk_ok ce F) as (_ & (_ & _ & _ & _ & _ & A & _) & _). destruct (A (1 + k)%nat ltac:(lia)) as (r & Lr & E & _ & _ & B). specialize (B ltac:(intros l l' Hl Hl' N; lia)).
  rewrite !size_on_fd. unfold size, product in B. 
  replace (total (fun i => (nth (nth i (fd ce) 0%nat) (nth k (pres S) []) 0 - prolongate prol (fun c => nth c (nth k vecs []) 0) (nth i (fd ce) 0%nat)) * (nth (nth i (fd ce) 0%nat) (nth k (pres S) []) 0 - prolongate prol (fun c => nth c (nth k vecs []) 0) (nth i (fd ce) 0%nat))) (hh ce)) with (total (fun i => nth i r 0 * nth i r 0) (hh ce)).
  - replace (total (fun i => nth (nth i (fd ce) 0%nat) (nth k (pres S) []) 0 * nth (nth i (fd ce) 0%nat) (nth k (pres S) []) 0) (hh ce)) with (total (fun i => nth i (col (V ce) (1 + k)) 0 * nth i (col (V ce) (1 + k)) 0) (hh ce)). exact B.
    apply total_ext. intros i Hi. change (nth i (col (V ce) (1 + k)) 0) with (entry (V ce) i (1 + k)). now rewrite V_col.
  - apply total_ext. intros i Hi. rewrite <- V_col by auto. rewrite prol_at by auto. rewrite (E i Hi). unfold times. destruct VD as (_ & _ & VD).
    replace (total (fun t => at2 (bP ce) i t * nth (bef ce + t) (nth k vecs []) 0) (bm ce)) with (total (fun j => entry (bP ce) i j * entry (bW ce) j (1 + k)) (bm ce)). ring.
    apply total_ext. intros t Ht. rewrite VD; auto. apply order_in. apply F. rewrite cnt_f; auto.
Qed.
Lemma fd_split ce fe l (sg : nat -> R) : facet S ce -> In fe (fes ce) -> (l < cntf fe)%nat ->
  exists i, (i < hh ce)%nat /\ nth i (fd ce) 0%nat = (dofs_before cntf fe + l)%nat /\ nth i (flat_map (fun fe => sg fe :: repeat 0 (cntf fe - 1)) (fes ce)) 0 = if (l =? 0)%nat then sg fe else 0.
Proof.
  intros F. destruct OK as (_ & _ & _ & _ & _ & _ & _ & _ & D & _). specialize (D ce). unfold facet_dofs. assert (D2 : forall fe, In fe (fes ce) -> (0 < cntf fe)%nat) by (intros; now apply D). clear D. revert D2. generalize (fes ce). intros L. intros D X Hl. induction L as [|a L IH]. easy. assert (Da := D a (or_introl eq_refl)).
  assert (La : length (map (fun l0 => (dofs_before cntf a + l0)%nat) (seq 0 (cntf a))) = cntf a) by (now rewrite map_length, seq_length). assert (Lb' : length (sg a :: repeat 0 (cntf a - 1)) = cntf a) by (cbn [length]; rewrite repeat_length; lia).
  destruct X as [->|X].
  - exists l. cbn [flat_map]. split. rewrite app_length, La. lia. split. rewrite app_nth1 by lia. rewrite (nth_indep _ 0%nat (dofs_before cntf fe + 0)%nat) by lia. rewrite (map_nth (fun l0 => (dofs_before cntf fe + l0)%nat)), seq_nth by lia. lia.
    change ((fun fe => sg fe :: repeat 0 (cntf fe - 1)) fe ++ ?r) with ((sg fe :: repeat 0 (cntf fe - 1)) ++ r). rewrite app_nth1 by lia. destruct l as [|l]. reflexivity. cbn [nth Nat.eqb]. apply nth_repeat.
  - destruct IH as (i & I1 & I2 & I3); auto. intros; apply D; now right. exists (cntf a + i)%nat. cbn [flat_map]. split. rewrite app_length, La. lia. split. rewrite app_nth2 by lia. rewrite La. replace (cntf a + i - cntf a)%nat with i by lia. exact I2. rewrite app_nth2 by lia. rewrite Lb'. replace (cntf a + i - cntf a)%nat with i by lia. exact I3.
Qed.
Lemma ff_map ce g : facet S ce -> dot (ff ce) (map g (fd ce)) = sum (map (fun fe => orient S ce fe * flow_of S fe * g (dofs_before cntf fe)) (fes ce)).
Proof.
  intros F. destruct OK as (_ & _ & _ & _ & _ & _ & _ & _ & D & _). unfold ff, facet_dofs. assert (G : forall l, (forall fe, In fe l -> (0 < cntf fe)%nat) -> dot (flat_map (fun fe => map (fun ll => orient S ce fe * (if (ll =? 0)%nat then flow_of S fe else 0)) (seq 0 (cntf fe))) l) (map g (flat_map (fun fe => map (fun l => (dofs_before cntf fe + l)%nat) (seq 0 (cntf fe))) l)) = sum (map (fun fe => orient S ce fe * flow_of S fe * g (dofs_before cntf fe)) l)).
  { induction l as [|fe l IH]; intros H; cbn [flat_map map]. reflexivity. assert (P := H fe (or_introl eq_refl)). rewrite map_app. rewrite dot_app by (now rewrite !map_length). rewrite IH by (intros; apply H; right; auto). unfold sum. cbn [fold_right]. f_equal.
    destruct (cntf fe) as [|k]. lia. cbn [seq map Nat.eqb]. rewrite Nat.add_0_r. unfold dot. cbn [combine map fold_right fst snd].
    replace (fold_right Rplus 0 _) with 0. ring. symmetry. assert (Q : forall n s, (0 < s)%nat -> fold_right Rplus 0 (map (fun ab => fst ab * snd ab) (combine (map (fun ll => orient S ce fe * (if (ll =? 0)%nat then flow_of S fe else 0)) (seq s n)) (map g (map (fun l0 => (dofs_before cntf fe + l0)%nat) (seq s n))))) = 0). { induction n as [|n IHn]; intros s Hs; cbn [seq map combine fold_right fst snd]. auto. rewrite IHn by lia. destruct (Nat.eqb_spec s 0). lia. ring. } apply Q. lia. }
  apply G. intros fe X. now apply (D ce).
Qed.
Lemma unit_col ce t : facet S ce -> (t < bm ce)%nat -> map (prolongate prol (unit_vec (bef ce + t))) (fd ce) = col (bP ce) t.
Proof.
  intros F Ht. pose proof (bm_bound ce F) as B. destruct (blk_ok ce F) as (_ & (_ & (_ & M) & _) & _). specialize (M t ltac:(lia)). apply (nth_ext _ _ (prolongate prol (unit_vec (bef ce + t)) 0%nat) 0). rewrite map_length. unfold col. now rewrite M.
  intros i Hi. rewrite map_length in Hi. rewrite map_nth. now rewrite prol_unit.
Qed.
Lemma col_flow ce t : facet S ce -> (1 <= t < bm ce)%nat -> sum (map (fun fe => orient S ce fe * flow_of S fe * prolongate prol (unit_vec (bef ce + t)) (dofs_before cntf fe)) (fes ce)) = 0.
Proof.
  intros F Ht. rewrite <- ff_map by auto. rewrite unit_col by (auto; lia). destruct (blk_ok ce F) as (_ & (B & (_ & M) & _) & Z). rewrite (dot_product (hh ce)). now apply Z. apply ff_length. apply M. lia.
Qed.
Lemma col_special ce fe l : facet S ce -> In fe (fes ce) -> (l < cntf fe)%nat -> prolongate prol (unit_vec (bef ce)) (dofs_before cntf fe + l) = if (l =? 0)%nat then sgn ce fe else 0.
Proof.
  intros F X Hl. destruct (fd_split ce fe l (sgn ce) F X Hl) as (i & Hi & Ei & Es). rewrite <- Ei, <- Es. pose proof (bm_bound ce F) as B. replace (bef ce) with (bef ce + 0)%nat by lia. rewrite prol_unit by (auto; lia).
  destruct (blk_ok ce F) as (_ & (_ & _ & _ & C & _) & _). specialize (C 0%nat ltac:(lia)). unfold at2. unfold col in C. rewrite C. reflexivity.
Qed.
Lemma new_flow ce : facet S ce -> nth ce flow 0 = sum (map (fun fe => Rabs (flow_of S fe)) (fes ce)).
Proof.
  intros F. destruct PD as (_ & _ & A). destruct (A ce ltac:(apply order_in; apply F) F) as (_ & ->). rewrite <- flow_special by auto. destruct (blk_ok ce F) as (_ & (_ & _ & _ & C & _) & _). specialize (C 0%nat ltac:(lia)). unfold col in C.
  replace (map (fun i => at2 (bP ce) i 0) (seq 0 (hh ce))) with (sp ce). rewrite !(dot_product (hh ce)) by (auto using ff_length, sp_length). apply total_ext. intros; ring.
  apply (nth_ext _ _ 0 (at2 (bP ce) 0 0)). rewrite map_length, seq_length. now apply sp_length. intros i Hi. rewrite sp_length in Hi by auto. rewrite (map_nth (fun i => at2 (bP ce) i 0)), seq_nth by auto. unfold at2. rewrite C. reflexivity.
Qed.
Lemma locality ce d : facet S ce -> In d (fd ce) -> fst (nth d prol ([], [])) = seq (bef ce) (cnt ce).
Proof. intros F Hd. apply (In_nth _ _ 0%nat) in Hd as (i & Hi & <-). now rewrite fd_row. Qed.
End P.
