(** Lemmas for C106. *)
From Verif Require Import Base EQCModel ReduceModel UtilProofs MISProofs FactoryProofs EQCProofs EQCProofs2 EQCProofs3 EQCProps ReduceProofs CtrProofs2 GCProofs PresProofs FauxModel FauxSpec.
From Coq Require Import Lia.
Local Open Scope nat_scope.

Definition nz (marks : list Z) (k : nat) : bool := negb (nth k marks 0 =? 0)%Z.
Lemma count_ok marks : countSubsetMarks marks = length (filter (nz marks) (seq 0 (length marks))).
Proof.
  unfold countSubsetMarks. assert (G : forall l p, fold_left (fun n x => if (x =? 0)%Z then n else S n) l p = p + length (filter (fun x => negb (x =? 0)%Z) l)).
  { induction l as [|x l IH]; intros p; cbn. lia. rewrite IH. destruct (x =? 0)%Z; cbn; lia. }
  rewrite G. cbn. clear G. unfold nz. induction marks as [|x l IH]; auto. cbn [length seq filter nth]. rewrite <- seq_shift. assert (M : forall (f : nat -> bool) l, length (filter f (map S l)) = length (filter (fun k => f (S k)) l)). { intros f m. induction m as [|y m IHm]; auto. cbn. destruct (f (S y)); cbn; auto. }
  destruct (x =? 0)%Z; cbn [negb length]; rewrite M, IH; reflexivity.
Qed.
(** the maps after the loop *)
Record maps_ok (n : nat) (m : nat -> bool) (a : list Z) (c : nat) (sub : list nat) : Prop := {
  mo_sub : sub = filter m (seq 0 n); mo_c : c = length sub; mo_len : length a = n;
  mo_yes : forall k, k < n -> m k = true -> nth k a 0%Z = Z.of_nat (cntf m k); mo_no : forall k, k < n -> m k = false -> nth k a 0%Z = (-1)%Z }.
Lemma maps_run marks : exists a c sub, markToSubsetMappings marks = Ret (a, c, sub) /\ maps_ok (length marks) (nz marks) a c sub.
Proof.
  unfold markToSubsetMappings. set (n := length marks). set (m := nz marks). set (L := length (filter m (seq 0 n))). assert (CE : countSubsetMarks marks = L) by apply count_ok. rewrite CE.
  assert (G : forall j, j <= n -> exists a sub, foldM (fun '(a, nSub, sub) j => x <- rd a j ;;
      if negb (x =? 0)%Z then a <- wr a j (Z.of_nat nSub) ;; sub <- wr sub nSub j ;; Ret (a, S nSub, sub)
      else a <- wr a j (-1)%Z ;; Ret (a, nSub, sub)) (seq 0 j) (marks, 0, repeat 0 L) = Ret (a, cntf m j, sub) /\ length a = n /\ length sub = L /\ firstn (cntf m j) sub = filter m (seq 0 j) /\
      forall k, k < n -> nth k a 0%Z = if k <? j then (if m k then Z.of_nat (cntf m k) else (-1)%Z) else nth k marks 0%Z).
  { induction j as [|j IH]; intros Hj.
    - exists marks, (repeat 0 L). cbn. split; auto. split; auto. split. apply repeat_length. split; auto.
    - destruct IH as (a & sub & E & La & Ls & Fs & V); [lia|]. rewrite seq_S, foldM_app, E. cbn [plus bind foldM]. rewrite (rd_nth a j 0%Z) by lia. cbn [bind]. rewrite V by lia. rewrite Nat.ltb_irrefl. fold (nz marks j). fold m. rewrite cntf_S.
      assert (NV : forall x, (forall k, k < n -> nth k (upd a j x) 0%Z = if k =? j then x else nth k a 0%Z)). { intros x k Hk. destruct (Nat.eqb_spec k j) as [->|N]. now rewrite nth_upd_eq by lia. now rewrite nth_upd_neq by auto. }
      destruct (m j) eqn:M.
      + rewrite wr_ok by lia. cbn [bind]. assert (CL : cntf m j < L). { destruct (cntf_nth m n j) as (X & _); auto. } rewrite wr_ok by lia. cbn [bind]. eexists _, _. rewrite Nat.add_1_r. split. reflexivity. rewrite !upd_length. split; auto. split; auto. split.
        * rewrite (firstn_S_nth 0) by (rewrite upd_length; lia). rewrite nth_upd_eq by lia. rewrite filter_app. cbn [filter]. rewrite M. f_equal. rewrite <- Fs. clear -CL Ls. revert CL. rewrite <- Ls. generalize (cntf m j). clear. induction sub as [|x s IH]; intros [|c] Hc; cbn in *; try lia; try reflexivity; f_equal; apply IH; lia.
        * intros k Hk. rewrite NV by auto. destruct (Nat.eqb_spec k j) as [->|N]. destruct (Nat.ltb_spec j (S j)); [|lia]. now rewrite M. rewrite V by auto. destruct (Nat.ltb_spec k j), (Nat.ltb_spec k (S j)); auto; lia.
      + rewrite wr_ok by lia. cbn [bind]. eexists _, _. rewrite Nat.add_0_r. split. reflexivity. rewrite !upd_length. split; auto. split; auto. split.
        * rewrite filter_app. cbn [filter]. rewrite M, app_nil_r. auto.
        * intros k Hk. rewrite NV by auto. destruct (Nat.eqb_spec k j) as [->|N]. destruct (Nat.ltb_spec j (S j)); [|lia]. now rewrite M. rewrite V by auto. destruct (Nat.ltb_spec k j), (Nat.ltb_spec k (S j)); auto; lia. }
  destruct (G n (le_n _)) as (a & sub & E & La & Ls & Fs & V). exists a, (cntf m n), sub. split; auto. assert (C : cntf m n = L) by reflexivity. rewrite C in Fs. rewrite <- Ls, firstn_all in Fs. constructor; [exact Fs|rewrite C; now symmetry|exact La| |].
  - intros k Hk M. rewrite V by auto. destruct (Nat.ltb_spec k n); [|lia]. now rewrite M.
  - intros k Hk M. rewrite V by auto. destruct (Nat.ltb_spec k n); [|lia]. now rewrite M.
Qed.
Lemma maps_numbering n m a c sub (rel : nat -> Prop) : maps_ok n m a c sub -> (forall k, k < n -> (m k = true <-> rel k)) -> numbering n rel c (fun k => rd a k) (fun i => rd sub i).
Proof.
  intros [E1 E2 E3 Y N] HR. assert (SS : StronglySorted lt sub) by (rewrite E1; apply ss_filter_r, ss_seq).
  assert (PN : forall k, k < n -> m k = true -> cntf m k < c /\ nth (cntf m k) sub 0 = k). { intros k Hk M. destruct (cntf_nth m n k Hk M) as (A & B). rewrite E2, E1. auto. }
  assert (INJ : forall i i', i < i' -> i' < c -> nth i sub 0 < nth i' sub 0). { intros i i' A B. apply (EQCProps.ss_nth lt sub 0 SS i i'). lia. }
  constructor.
  - intros i Hi. set (k := nth i sub 0). assert (I : In k (filter m (seq 0 n))) by (rewrite <- E1; apply nth_In; lia). apply filter_In in I as (I & M). apply in_seq in I. exists k. split. apply (rd_nth _ _ 0). lia. split. lia. split. apply HR; auto; lia. rewrite (rd_nth _ _ 0%Z) by lia. f_equal. rewrite Y by (auto; lia). f_equal.
    destruct (PN k ltac:(lia) M) as (P1 & P2). destruct (Nat.lt_trichotomy (cntf m k) i) as [L|[|L]]; auto; exfalso; [pose proof (INJ _ _ L Hi)|pose proof (INJ _ _ L P1)]; unfold k in *; lia.
  - intros k Hk R. apply HR in R; auto. destruct (PN k Hk R) as (P1 & P2). exists (cntf m k). split; auto. split. rewrite (rd_nth _ _ 0%Z) by lia. f_equal. now apply Y. rewrite (rd_nth _ _ 0) by lia. now f_equal.
  - intros k Hk. destruct (m k) eqn:M. left. now apply HR. right. split. intros X. apply HR in X; auto. congruence. rewrite (rd_nth _ _ 0%Z) by lia. f_equal. now apply N.
  - intros i i' k k' A B Q Q'. rewrite (rd_nth sub i 0) in Q by lia. rewrite (rd_nth sub i' 0) in Q' by lia. injection Q as <-. injection Q' as <-. auto.
Qed.
(** marks *)
Lemma set_all {A} (v d : A) l : forall a, (forall j, In j l -> j < length a) -> exists a', foldM (fun a j => wr a j v) l a = Ret a' /\ length a' = length a /\ forall k, (In k l -> nth k a' d = v) /\ (~ In k l -> nth k a' d = nth k a d).
Proof.
  induction l as [|x l IH]; intros a B. exists a. split; auto. split; auto. intros k. split; auto. intros []. cbn [foldM]. assert (Hx : x < length a) by (apply B; now left). rewrite wr_ok by auto. cbn [bind]. destruct (IH (upd a x v)) as (a' & E & L & V). intros j I. rewrite upd_length. apply B. now right.
  exists a'. split; auto. rewrite upd_length in L. split; auto. intros k. destruct (V k) as (V1 & V2). split.
  - intros [<-|I]; auto. destruct (in_dec Nat.eq_dec x l); auto. rewrite V2 by auto. now apply nth_upd_eq.
  - intros N. rewrite V2. apply nth_upd_neq. intros ->. apply N. now left. intros I. apply N. now right.
Qed.
Lemma nz_bits b : forall k, nz (map (fun b : bool => if b then 1%Z else 0%Z) b) k = nth k b false.
Proof. unfold nz. induction b as [|x b IH]; intros [|k]; cbn; auto. destruct x; reflexivity. Qed.
Lemma mark_facets_ok R : rank_ok R -> exists b, mark_facets R = Ret b /\ length b = fr_nfac R /\ forall k, nth k b false = true <-> own_fac R k.
Proof.
  intros OK. unfold mark_facets.
  destruct (foldM_inv (fun b e => if fe_def e then foldM (fun b f => wr b f true) (fe_fac e) b else Ret b) (fun done b => length b = fr_nfac R /\ forall k, nth k b false = true <-> exists e, In e done /\ fe_def e = true /\ In k (fe_fac e)) (fr_els R) (repeat false (fr_nfac R))) as (b & E & L & V).
  - split. apply repeat_length. intros k. rewrite nth_repeat. split. discriminate. intros (e & [] & _).
  - intros done e rest b E (L & V). destruct (fe_def e) eqn:D.
    + destruct (set_all true false (fe_fac e) b) as (b' & E' & L' & V'). { intros j J. rewrite L. apply (ro_fac R OK e); auto. rewrite E. apply in_or_app. right. now left. } exists b'. split; auto. split. congruence. intros k. destruct (V' k) as (V1 & V2). destruct (in_dec Nat.eq_dec k (fe_fac e)) as [I|I].
      * rewrite V1 by auto. split; auto. intros _. exists e. split; auto. apply in_or_app. right. now left.
      * rewrite V2 by auto. rewrite V. split; intros (e' & A & B & C); exists e'; (split; [|auto]). apply in_or_app. now left. apply in_app_or in A as [A|[<-|[]]]; auto. contradiction.
    + exists b. split; auto. split; auto. intros k. rewrite V. split; intros (e' & A & B & C); exists e'; (split; [|auto]). apply in_or_app. now left. apply in_app_or in A as [A|[<-|[]]]; auto. congruence.
  - exists b. split; auto.
Qed.
Lemma mark_els_ok R : rank_ok R -> exists ae ap, mark_els R = Ret (ae, ap) /\ length ae = length (fr_els R) /\ length ap = fr_npsn R /\ (forall k, nz ae k = true <-> own_el R k) /\ (forall k, nz ap k = true <-> own_psn R k).
Proof.
  intros OK. unfold mark_els. set (ne := length (fr_els R)).
  assert (G : forall j, j <= ne -> exists ae ap, foldM (fun '(ae, ap) nr => e <- rd (fr_els R) nr ;;
      if fe_def e then ae <- wr ae nr 1%Z ;; ap <- foldM (fun ap j => wr ap j 1%Z) (fe_psn e) ap ;; Ret (ae, ap) else Ret (ae, ap)) (seq 0 j) (repeat 0%Z ne, repeat 0%Z (fr_npsn R)) = Ret (ae, ap) /\ length ae = ne /\ length ap = fr_npsn R /\
      (forall k, nz ae k = true <-> k < j /\ own_el R k) /\ forall k, nz ap k = true <-> exists e, In e (firstn j (fr_els R)) /\ fe_def e = true /\ In k (fe_psn e)).
  { induction j as [|j IH]; intros Hj.
    - eexists _, _. split. reflexivity. rewrite !repeat_length. split; auto. split; auto. split; intros k; unfold nz; rewrite nth_repeat; cbn. split. discriminate. lia. split. discriminate. intros (e & [] & _).
    - destruct IH as (ae & ap & E & L1 & L2 & V1 & V2); [lia|]. rewrite seq_S, foldM_app, E. cbn [plus bind foldM]. assert (Hj' : j < length (fr_els R)) by (unfold ne in Hj; lia). set (e := nth j (fr_els R) (mkFE false [] [])). assert (NE : nth_error (fr_els R) j = Some e) by now apply nth_error_nth'. unfold rd at 1. rewrite NE. cbn [bind]. rewrite (firstn_S_nth (mkFE false [] [])) by auto. fold e. destruct (fe_def e) eqn:D.
      + rewrite wr_ok by lia. cbn [bind]. destruct (set_all 1%Z 0%Z (fe_psn e) ap) as (ap' & E' & L' & V'). { intros i I. rewrite L2. apply (ro_psn R OK e); auto. eapply nth_error_In; eauto. } rewrite E'. cbn [bind]. eexists _, _. split. reflexivity. rewrite upd_length. split; auto. split. congruence. split; intros k.
        * unfold nz in *. destruct (Nat.eq_dec k j) as [->|N]. rewrite nth_upd_eq by lia. cbn. split; auto. intros _. split. lia. exists e. auto. rewrite nth_upd_neq by auto. rewrite V1. split; intros (A & B); split; auto; lia.
        * destruct (V' k) as (W1 & W2). unfold nz in *. destruct (in_dec Nat.eq_dec k (fe_psn e)) as [I|I].
          -- rewrite W1 by auto. cbn. split; auto. intros _. exists e. split; auto. apply in_or_app. right. now left.
          -- rewrite W2 by auto. rewrite V2. split; intros (e' & A & B & C); exists e'; (split; [|auto]). apply in_or_app. now left. apply in_app_or in A as [A|[<-|[]]]; auto. contradiction.
      + eexists _, _. split. reflexivity. split; auto. split; auto. split; intros k.
        * rewrite V1. split; intros (A & B); split; auto; try lia. destruct (Nat.eq_dec k j) as [->|]; [|lia]. destruct B as (e' & B1 & B2). congruence.
        * rewrite V2. split; intros (e' & A & B & C); exists e'; (split; [|auto]). apply in_or_app. now left. apply in_app_or in A as [A|[<-|[]]]; auto. congruence. }
  destruct (G ne (le_n _)) as (ae & ap & E & L1 & L2 & V1 & V2). exists ae, ap. split; auto. split; auto. split; auto. split; intros k. rewrite V1. split. tauto. intros X. split; auto. destruct X as (e & X & _). unfold ne. apply nth_error_Some. congruence.
  rewrite V2. unfold ne. now rewrite firstn_all.
Qed.
(** the reduction *)
Lemma all_or_ok (own : frank -> nat -> Prop) (ids : frank -> list nat) Rs (marks : list (list Z)) : length marks = length Rs -> (forall r R, nth_error Rs r = Some R -> forall k, nz (nth r marks []) k = true <-> own R k) ->
  length (all_or (map ids Rs) marks) = length Rs /\ forall r R, nth_error Rs r = Some R -> length (nth r (all_or (map ids Rs) marks) []) = length (nth r marks []) /\ forall k, k < length (nth r marks []) -> (nz (nth r (all_or (map ids Rs) marks) []) k = true <-> relevant own ids Rs R k).
Proof.
  intros LM HM. split. unfold all_or. now rewrite map_length, seq_length. intros r R HR. assert (Hr : r < length Rs) by (apply nth_error_Some; congruence). unfold all_or. rewrite (nth_map_ok _ _ _ 0) by (rewrite seq_length; lia). rewrite seq_nth by lia. cbn [plus]. split. now rewrite map_length, seq_length. intros k Hk.
  assert (ID : forall x X, nth_error Rs x = Some X -> nth x (map ids Rs) [] = ids X). { intros x X HX. apply nth_error_nth. now apply map_nth_error. }
  unfold nz at 1. rewrite (nth_map_ok _ _ _ 0) by (now rewrite seq_length). rewrite seq_nth by auto. cbn [plus]. rewrite (ID r R HR). match goal with |- context [if ?b then _ else _] => assert (E : negb ((if b then 1 else 0) =? 0)%Z = b) by (destruct b; reflexivity); rewrite E; clear E end.
  rewrite existsb_exists. unfold relevant. split.
  - intros (r' & A & B). apply in_seq in A. apply existsb_exists in B as (k' & B & C). apply in_seq in B. apply andb_true_iff in C as (C & D). apply Nat.eqb_eq in C. assert (X : exists R', nth_error Rs r' = Some R'). { destruct (nth_error Rs r') eqn:Q; eauto. apply nth_error_None in Q. lia. } destruct X as (R' & X). exists R', k'. split. eapply nth_error_In; eauto. split. apply (HM r' R' X). exact D. now rewrite <- (ID r' R' X).
  - intros (R' & k' & A & B & C). apply In_nth_error in A as (r' & A). assert (r' < length Rs) by (apply nth_error_Some; congruence). exists r'. split. apply in_seq. lia. apply existsb_exists. exists k'. apply (HM r' R' A) in B. split. 
    + apply in_seq. split. lia. cbn [plus]. destruct (Nat.lt_ge_cases k' (length (nth r' marks []))) as [|G]; auto. unfold nz in B. rewrite (nth_overflow _ _ G) in B. discriminate.
    + rewrite (ID r' R' A), C, Nat.eqb_refl. exact B.
Qed.
