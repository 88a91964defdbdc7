(** Lemmas for C105. *)
From Verif Require Import Base EQCModel ReduceModel UtilProofs EQCProofs EQCProofs2 EQCProofs3 ReduceProofs EQCProps ReduceProps GCModel GCProofs GCProofs3 GCProps GEModel GESpec GECheck DataModel DataSpec DataProofs DataProofs2 DataProps ScatModel ScatSpec.
From Coq Require Import Lia.
Local Open Scope nat_scope.

Lemma consec_nth s c k : k < length c -> nth k (consecutive s c) [] = seq (s + disp c k) (nth k c 0).
Proof. intros Hk. unfold consecutive. rewrite (nth_map_ok _ _ _ 0) by now rewrite seq_length. now rewrite seq_nth. Qed.
Lemma consec_all s c : concat (consecutive s c) = seq s (list_sum c).
Proof.
  unfold consecutive. assert (G : forall c' , length c' <= length c -> c' = firstn (length c') c -> concat (map (fun k => seq (s + list_sum (firstn k c)) (nth k c 0)) (seq 0 (length c'))) = seq s (list_sum c')).
  { intros c'. induction c' as [|x c' IH] using rev_ind; intros L E. reflexivity. rewrite app_length in *. cbn [length] in *. rewrite Nat.add_1_r in *. rewrite seq_S, map_app, concat_app. cbn [map concat plus]. rewrite app_nil_r.
    assert (E1 : c' = firstn (length c') c). { apply (f_equal (firstn (length c'))) in E. rewrite firstn_app, firstn_all, Nat.sub_diag, app_nil_r in E. rewrite firstn_firstn in E. rewrite E at 1. f_equal. lia. }
    rewrite IH by (auto; lia). rewrite <- E1. assert (X : nth (length c') c 0 = x). { transitivity (nth (length c') (c' ++ [x]) 0). rewrite E. clear -L. revert L. generalize (length c'). induction c as [|y c IH]; intros n L. cbn in L. lia. destruct n; cbn; auto. apply IH. cbn in L. lia. rewrite app_nth2, Nat.sub_diag by lia. reflexivity. }
    rewrite X. rewrite list_sum_app. cbn. rewrite Nat.add_0_r. now rewrite seq_app. }
  apply G. lia. now rewrite firstn_all.
Qed.
Lemma interleave_perm {A B} (f g : A -> list B) l : Permutation (concat (map (fun x => f x ++ g x) l)) (concat (map f l) ++ concat (map g l)).
Proof.
  induction l as [|x l IH]; cbn. constructor. rewrite IH. rewrite <- !app_assoc. apply Permutation_app_head. rewrite !app_assoc. apply Permutation_app_tail. apply Permutation_app_comm.
Qed.
Lemma map_nth_all {A} (l : list (list A)) : map (fun k => nth k l []) (seq 0 (length l)) = l.
Proof. induction l as [|x l IH]. reflexivity. cbn [length seq map nth]. f_equal. rewrite <- seq_shift, map_map. exact IH. Qed.

Lemma map_const {A B} (x : B) (l : list A) : map (fun _ => x) l = repeat x (length l).
Proof. induction l; cbn; congruence. Qed.
Section S.
  Variables (H : list (list (list nat))) (EN CN : list (list nat)) (data : list (list Z)).
  Hypothesis HW : world H.
  Hypothesis HF : local_first H.
  Hypothesis CF : counts_fit H EN CN.
  Notation np := (length H).
  Notation T := (layout H EN CN).
  Notation n := (all_nodes EN CN).
  Hypothesis HS : sizes_fit H n data.
  Let E := map (fun r => consecutive 0 (nth r EN [])) (seq 0 np).
  Let X := map (fun r => consecutive (list_sum (nth r EN [])) (nth r CN [])) (seq 0 np).
  Notation en r := (nth r EN []).
  Notation cn r := (nth r CN []).
  Lemma ids_ok r k : r < np -> k < length (nth r H []) -> nodes_of E X r k = class_ids (en r) (cn r) k.
  Proof.
    intros Hr Hk. destruct (cf_rows _ _ _ CF r Hr) as (L1 & L2). unfold nodes_of, class_ids, E, X. rewrite !(nth_map_ok _ _ _ 0) by now rewrite seq_length. rewrite !seq_nth by auto. cbn [plus]. rewrite !consec_nth by lia. reflexivity.
  Qed.
  Lemma layout_row r k : r < np -> k < length (nth r H []) -> row T r k = class_ids (en r) (cn r) k.
  Proof. intros Hr Hk. rewrite <- ids_ok by auto. unfold layout. apply T_row; auto. Qed.
  Lemma layout_ok : node_tables H T n.
  Proof.
    assert (LR : forall r, r < np -> nth r T [] = map (fun k => nodes_of E X r k) (seq 0 (length (nth r H [])))). { intros r Hr. unfold layout, numbers. rewrite (nth_map_ok _ _ _ 0) by now rewrite seq_length. now rewrite seq_nth. }
    constructor.
    - unfold layout, numbers. now rewrite map_length, seq_length.
    - intros r Hr. rewrite LR by auto. now rewrite map_length, seq_length.
    - intros r Hr. rewrite LR by auto. destruct (cf_rows _ _ _ CF r Hr) as (L1 & L2). unfold nodes_of. rewrite interleave_perm. 
      assert (LE : nth r E [] = consecutive 0 (en r)). { unfold E. rewrite (nth_map_ok _ _ _ 0) by now rewrite seq_length. now rewrite seq_nth. } assert (LX : nth r X [] = consecutive (list_sum (en r)) (cn r)). { unfold X. rewrite (nth_map_ok _ _ _ 0) by now rewrite seq_length. now rewrite seq_nth. }
      replace (length (nth r H [])) with (length (nth r E [])) at 1 by (rewrite LE; unfold consecutive; now rewrite map_length, seq_length, L1). replace (length (nth r H [])) with (length (nth r X [])) by (rewrite LX; unfold consecutive; now rewrite map_length, seq_length, L2).
      rewrite !map_nth_all, LE, LX, !consec_all. unfold all_nodes. rewrite seq_app. reflexivity.
    - intros r r' j j' Hr Hr' Hj Hj' SC. rewrite !layout_row by auto. unfold class_ids. rewrite !app_length, !seq_length. destruct (cf_same _ _ _ CF r r' j j' Hr Hr' Hj Hj' SC) as (A & B). congruence.
  Qed.
  Let HT := layout_ok.
  Lemma data_len r : r < np -> length (nth r data []) = n r.
  Proof. intros Hr. now apply HS. Qed.
  (** *** the classes sent and received *)
  Notation slav m q := (slave_of_rows H H m q).
  Notation mast q m := (master_of_rows H H q m).
  Lemma dp0 r : r < np -> 0 < length (nth r H []) -> nth 0 (nth r H []) [] = [].
  Proof. intros Hr _. now apply HF. Qed.
  Lemma filter_tail (f : nat -> bool) k : (0 < k -> f 0 = false) -> filter f (seq 1 (k - 1)) = filter f (seq 0 k).
  Proof. intros F. destruct k as [|k]. reflexivity. cbn [Nat.sub seq filter]. rewrite Nat.sub_0_r. now rewrite F by lia. Qed.
  Lemma sends_eq m q : m < np -> sends m (nth m H []) q = slav m q.
  Proof.
    intros Hm. unfold sends, slave_of_rows. assert (F0 : 0 < length (nth m H []) -> (fun k => is_master m (row H m k) && has q (row H m k)) 0 = false) by (intros L; cbv beta; rewrite dp0 by auto; reflexivity).
    rewrite filter_tail by exact F0. unfold nrows. apply filter_ext. intros k. unfold dp. destruct (nth k (nth m H []) []) as [|d0 d]; auto.
  Qed.
  Lemma waits_eq q m : q < np -> m <> q -> waits q (nth q H []) m = mast q m.
  Proof.
    intros Hq NE. unfold waits, master_of_rows. assert (F0 : 0 < length (nth q H []) -> (fun k => negb (is_master q (row H q k)) && (hd 0 (row H q k) =? m)) 0 = false) by (intros L; cbv beta; rewrite dp0 by auto; reflexivity).
    rewrite filter_tail by exact F0. unfold nrows. apply filter_ext. intros k. unfold dp. destruct (nth k (nth q H []) []) as [|d0 d]; cbn [is_master negb hd].
    - cbn. symmetry. now apply Nat.eqb_neq.
    - destruct (q <? d0). cbn. symmetry. now apply Nat.eqb_neq. cbn. apply Nat.eqb_sym.
  Qed.
  Notation key := (fun r k => gid H (members r (nth k (nth r H []) []))).
  Lemma KEY r k q k' : r < np -> k < length (nth r H []) -> q < np -> k' < length (nth q H []) -> (key r k = key q k' <-> same_class r (nth k (nth r H []) []) q (nth k' (nth q H []) [])).
  Proof. intros. now apply gid_iff. Qed.
  Lemma in_waits q m k : In k (waits q (nth q H []) m) <-> 1 <= k < length (nth q H []) /\ is_master q (row H q k) = false /\ hd 0 (row H q k) = m.
  Proof. unfold waits. rewrite filter_In, in_seq, andb_true_iff, negb_true_iff, Nat.eqb_eq. intuition lia. Qed.
  Lemma in_sends m q k : In k (sends m (nth m H []) q) <-> 1 <= k < length (nth m H []) /\ is_master m (row H m k) = true /\ In q (row H m k).
  Proof. unfold sends. rewrite filter_In, in_seq, andb_true_iff, has_in. intuition lia. Qed.
  Lemma master_below q k : q < np -> k < length (nth q H []) -> is_master q (row H q k) = false -> hd 0 (row H q k) < q.
  Proof.
    intros Hq Hk M. destruct (w_row H HW q (row H q k) Hq (nth_In _ _ Hk)) as (_ & N & _). destruct (row H q k) as [|d0 d]. discriminate. cbn [is_master hd] in *. apply Nat.ltb_ge in M. enough (d0 <> q) by lia. intros ->. apply N. now left.
  Qed.
  (** the classes a rank waits for are those that are sent, in the same order *)
  Lemma match_up m q : m < np -> q < np -> length (sends m (nth m H []) q) = length (waits q (nth q H []) m) /\
    forall t, t < length (sends m (nth m H []) q) -> same_class m (row H m (nth t (sends m (nth m H []) q) 0)) q (row H q (nth t (waits q (nth q H []) m) 0)).
  Proof.
    intros Hm Hq. destruct (Nat.lt_ge_cases m q) as [L|L].
    - assert (HR : forall r k, r < np -> k < nrows H r -> sset (dp H r k) /\ ~ In r (dp H r k) /\ forall q, In q (dp H r k) -> q < np). { intros r k Hr Hk. apply (w_row H HW r); auto. now apply nth_In. }
      assert (HI : forall r k k', r < np -> k < nrows H r -> k' < nrows H r -> key r k = key r k' -> k = k').
      { intros r k k' Hr Hk Hk' EK. apply KEY in EK; auto. pose proof (w_row H HW r _ Hr (nth_In _ [] Hk)) as (A1 & A2 & _). pose proof (w_row H HW r _ Hr (nth_In _ [] Hk')) as (B1 & B2 & _). apply same_members in EK; auto. apply members_inj in EK; auto. eapply NoDup_nth; eauto. now apply tab_nodup. }
      assert (HK : forall r k q, r < np -> k < nrows H r -> In q (dp H r k) -> exists k', k' < nrows H q /\ key q k' = key r k).
      { intros r k x Hr Hk Hx. pose proof (w_row H HW r _ Hr (nth_In _ [] Hk)) as (A1 & A2 & A3). pose proof (w_cons H HW r _ x Hr (nth_In _ [] Hk) Hx) as Y. apply In_nth with (d := []) in Y as (k' & K1 & K2). exists k'. split; auto. apply KEY; auto. rewrite K2. apply same_members; auto. now apply del_sset, members_sset. apply members_del. now apply members_sset. apply in_members; auto. }
      assert (HSm : forall r k q k', r < np -> k < nrows H r -> q < np -> k' < nrows H q -> key r k = key q k' -> members r (dp H r k) = members q (dp H q k')).
      { intros r k x k' Hr Hk Hx Hk' EK. apply KEY in EK; auto. apply same_members in EK; auto; now apply HR. }
      assert (HO : forall r q i j i' j', r < np -> q < np -> i < nrows H r -> j < nrows H r -> i' < nrows H q -> j' < nrows H q -> key r i = key q i' -> key r j = key q j' -> i < j -> i' < j').
      { intros r x i j i' j' Hr Hx Hi Hj Hi' Hj' E1 E2. apply KEY in E1, E2; auto. now apply (EQCProps.order_ok H HW r x). }
      pose proof (corr_len H H (fun _ _ _ => @nil nat) key HR HI HK HSm HO m q L Hq) as CL. pose proof (fun t => corr_nth H H (fun _ _ _ => @nil nat) key HR HI HK HSm HO m q t L Hq) as CN'.
      rewrite sends_eq by auto. rewrite waits_eq by (auto; lia). split; auto. intros t Ht. specialize (CN' t Ht).
      assert (A : forall k, In k (slav m q) -> k < length (nth m H [])) by (intros k K; rewrite <- sends_eq in K by auto; apply in_sends in K; lia). assert (B : forall k, In k (mast q m) -> k < length (nth q H [])) by (intros k K; rewrite <- waits_eq in K by (auto; lia); apply in_waits in K; lia).
      apply KEY; auto. apply A, nth_In; auto. apply B, nth_In. rewrite <- CL; auto.
    - assert (E1 : sends m (nth m H []) q = []). { destruct (sends m (nth m H []) q) as [|k l] eqn:Q; auto. exfalso. assert (I : In k (sends m (nth m H []) q)) by (rewrite Q; now left). apply in_sends in I as (I1 & I2 & I3). destruct (w_row H HW m (row H m k) Hm (nth_In _ _ (proj2 I1))) as (S1 & _). destruct (row H m k) as [|d0 d]. destruct I3. cbn in I2. apply Nat.ltb_lt in I2. pose proof (sset_hd d q d0 S1 I3). lia. }
      assert (E2 : waits q (nth q H []) m = []). { destruct (waits q (nth q H []) m) as [|k l] eqn:Q; auto. exfalso. assert (I : In k (waits q (nth q H []) m)) by (rewrite Q; now left). apply in_waits in I as (I1 & I2 & I3). pose proof (master_below q k Hq (proj2 I1) I2). lia. }
      rewrite E1, E2. split; auto. cbn. intros; lia.
  Qed.
  (** *** the messages *)
  Notation ids r k := (class_ids (en r) (cn r) k).
  Lemma ids_at r k l : r < np -> k < length (nth r H []) -> l < length (ids r k) -> at_vertex H T r (nth l (ids r k) 0) k l.
  Proof. intros Hr Hk Hl. rewrite <- layout_row in Hl |- * by auto. split; auto. Qed.
  Lemma ids_lt r k i : r < np -> k < length (nth r H []) -> In i (ids r k) -> i < n r.
  Proof. intros Hr Hk I. destruct (In_nth _ _ 0 I) as (l & Hl & <-). eapply at_lt; eauto using ids_at. Qed.
  Definition msg_of (r k : nat) : list Z := map (val data r) (ids r k).
  Definition out_of (r p : nat) : list (list Z) := map (msg_of r) (sends r (nth r H []) p).
  Lemma rd_ids r k : r < np -> k < length (nth r H []) -> mapM (rd (nth r data [])) (ids r k) = Ret (msg_of r k).
  Proof. intros Hr Hk. apply mapM_map. intros i I. rewrite (rd_nth _ i 0%Z). reflexivity. rewrite data_len by auto. eapply ids_lt; eauto. Qed.
  Lemma send_all_ok r : r < np -> send_all np r (nth r H []) (en r) (cn r) (nth r data []) = Ret (map (out_of r) (seq 0 np)).
  Proof.
    intros Hr. unfold send_all. destruct (Nat.ltb_spec (length (nth r H [])) 2) as [L|L].
    - f_equal. unfold out_of, sends. replace (length (nth r H []) - 1) with 0 by lia. cbn [seq filter map]. rewrite map_const, seq_length. reflexivity.
    - apply mapM_map. intros p _. apply mapM_map. intros k K. apply in_sends in K. apply rd_ids; auto; lia.
  Qed.
  (** the number of the class on the rank that sends it *)
  Definition src (r k : nat) : nat := let m := hd 0 (row H r k) in nth (pos_of k (waits r (nth r H []) m)) (sends m (nth m H []) r) 0.
  Lemma hd_in r k : r < np -> k < length (nth r H []) -> is_master r (row H r k) = false -> In (hd 0 (row H r k)) (row H r k).
  Proof. intros Hr Hk M. destruct (row H r k). discriminate. now left. Qed.
  Lemma src_ok r k : r < np -> 1 <= k < length (nth r H []) -> is_master r (row H r k) = false -> let m := hd 0 (row H r k) in
    m < np /\ pos_of k (waits r (nth r H []) m) < length (sends m (nth m H []) r) /\ 1 <= src r k < length (nth m H []) /\ same_class m (row H m (src r k)) r (row H r k) /\ length (ids m (src r k)) = length (ids r k).
  Proof.
    intros Hr Hk M m. pose proof (w_row H HW r (row H r k) Hr (nth_In _ _ (proj2 Hk))) as (_ & _ & W3). assert (Hm : m < np) by (apply W3, hd_in; auto; lia). split; auto.
    assert (I : In k (waits r (nth r H []) m)) by (apply in_waits; auto). destruct (pos_of_in _ _ 0 I) as (P1 & P2). destruct (match_up m r Hm Hr) as (L & SC). rewrite <- L in P1. split; auto. specialize (SC _ P1). rewrite P2 in SC. fold (src r k) in SC.
    assert (IS : In (src r k) (sends m (nth m H []) r)) by (apply nth_In; exact P1). apply in_sends in IS as (S1 & _). split; auto. assert (SC' : same_class m (row H m (src r k)) r (row H r k)) by exact SC. split; auto. unfold class_ids. rewrite !app_length, !seq_length. destruct (cf_same _ _ _ CF m r (src r k) k Hm Hr (proj2 S1) (proj2 Hk) SC') as (A & B). congruence.
  Qed.
  Definition updt (r k : nat) : list (nat * Z) := if is_master r (row H r k) then [] else combine (ids r k) (msg_of (hd 0 (row H r k)) (src r k)).
  Lemma wr_pairs l : forall av, (forall p, In p l -> fst p < length av) -> foldM (fun av ix => wr av (fst ix) (snd ix)) l av = Ret (puts av l).
  Proof. induction l as [|p l IH]; intros av B; auto. cbn [foldM]. rewrite wr_ok by (apply B; now left). cbn [bind]. rewrite IH. reflexivity. intros q Y. rewrite upd_length. apply B. now right. Qed.
  Lemma updt_lt r k p : r < np -> k < length (nth r H []) -> In p (updt r k) -> fst p < n r.
  Proof. intros Hr Hk I. unfold updt in I. destruct (is_master r (row H r k)); [destruct I|]. destruct p as [i x]. apply in_combine_l in I. eapply ids_lt; eauto. Qed.
  Lemma in_combine_nth {A B} (l : list A) (l' : list B) a b x y : In (x, y) (combine l l') -> exists t, t < length l /\ t < length l' /\ x = nth t l a /\ y = nth t l' b.
  Proof. revert l'. induction l as [|u l IH]; intros [|w l'] I; try destruct I. injection H0 as -> ->. exists 0. cbn. auto with arith. destruct (IH l' H0) as (t & A1 & A2 & A3 & A4). exists (Datatypes.S t). cbn. auto with arith. Qed.
  Lemma receive_ok r : r < np -> receive_all np r (nth r H []) (en r) (cn r) (map (fun q => out_of q r) (seq 0 np)) (nth r data []) = Ret (puts (nth r data []) (flat_map (updt r) (seq 1 (length (nth r H []) - 1)))).
  Proof.
    intros Hr. unfold receive_all.
    assert (LQ : forall q, q < np -> length (nth q (map (fun q => out_of q r) (seq 0 np)) []) = length (waits r (nth r H []) q)).
    { intros q Hq. rewrite (nth_map_ok _ _ _ 0) by now rewrite seq_length. rewrite seq_nth by auto. cbn [plus]. unfold out_of. rewrite map_length. now apply match_up. }
    destruct (Nat.ltb_spec (length (nth r H [])) 2) as [L|L].
    - assert (F : forallb (fun m : list (list Z) => length m =? 0) (map (fun q => out_of q r) (seq 0 np)) = true). { apply forallb_forall. intros m I. apply in_map_iff in I as (q & <- & I). apply in_seq in I. apply Nat.eqb_eq. specialize (LQ q ltac:(lia)). rewrite (nth_map_ok _ _ _ 0) in LQ by (rewrite seq_length; lia). rewrite seq_nth in LQ by lia. cbn [plus] in LQ. rewrite LQ. unfold waits. replace (length (nth r H []) - 1) with 0 by lia. reflexivity. }
      rewrite F. replace (length (nth r H []) - 1) with 0 by lia. reflexivity.
    - assert (F : forallb (fun q => length (nth q (map (fun q => out_of q r) (seq 0 np)) []) =? length (waits r (nth r H []) q)) (seq 0 np) = true). { apply forallb_forall. intros q I. apply in_seq in I. apply Nat.eqb_eq. apply LQ. lia. }
      rewrite F. assert (G : forall ks, (forall k, In k ks -> 1 <= k < length (nth r H [])) -> forall av, length av = n r -> foldM (fun av k => dk <- rd (nth r H []) k ;; if is_master r dk then Ret av
        else ms <- rd (map (fun q => out_of q r) (seq 0 np)) (hd 0 dk) ;; m <- rd ms (pos_of k (waits r (nth r H []) (hd 0 dk))) ;; let idl := ids r k in if length m =? length idl then foldM (fun av ix => wr av (fst ix) (snd ix)) (combine idl m) av else Err OutOfBounds) ks av = Ret (puts av (flat_map (updt r) ks))).
      { induction ks as [|k ks IH]; intros B av Lav; auto. pose proof (B k (or_introl eq_refl)) as Hk. cbn [foldM flat_map]. rewrite (rd_nth _ k []) by lia. cbn [bind].
        assert (UL : forall p, In p (updt r k) -> fst p < length av) by (intros p I; rewrite Lav; apply (updt_lt r k p Hr); auto; apply Hk). unfold updt at 1. unfold updt in UL. destruct (is_master r (row H r k)) eqn:M; cbn [bind app].
        - apply IH; auto. intros; apply B; now right.
        - destruct (src_ok r k Hr Hk M) as (S1 & S2 & S3 & S4 & S5). set (m := hd 0 (row H r k)) in *. rewrite (rd_nth _ m []) by now rewrite map_length, seq_length. cbn [bind]. rewrite (nth_map_ok _ _ _ 0) by now rewrite seq_length. rewrite seq_nth by auto. cbn [plus]. rewrite (rd_nth _ _ []) by (unfold out_of; now rewrite map_length). cbn [bind]. unfold out_of. rewrite (nth_map_ok _ _ _ 0) by auto. fold (src r k) in *. change (nth (pos_of k (waits r (nth r H []) m)) (sends m (nth m H []) r) 0) with (src r k). cbv zeta.
          assert (LM : length (msg_of m (src r k)) = length (ids r k)) by (unfold msg_of; now rewrite map_length). rewrite LM, Nat.eqb_refl. rewrite wr_pairs by exact UL. cbn [bind]. rewrite IH. now rewrite puts_app. intros; apply B; now right. now rewrite puts_length. }
      apply G. intros k K. apply in_seq in K. lia. now apply data_len.
  Qed.
  (** *** the values *)
  Definition result : list (list Z) := map (fun r => puts (nth r data []) (flat_map (updt r) (seq 1 (length (nth r H []) - 1)))) (seq 0 np).
  Lemma scatter_eq : ScatterNodalData H EN CN data = Ret result.
  Proof.
    unfold ScatterNodalData. rewrite (mapM_map _ (fun r => map (out_of r) (seq 0 np))). 2: { intros r R. apply in_seq in R. rewrite (rd_nth data r []) by (rewrite (proj1 HS); lia). cbn [bind]. apply send_all_ok. lia. }
    cbn [bind]. apply mapM_map. intros r R. apply in_seq in R. rewrite (rd_nth data r []) by (rewrite (proj1 HS); lia). cbn [bind]. rewrite (mapM_map _ (fun q => out_of q r)). 2: { intros q Q. apply in_seq in Q. rewrite (rd_nth _ q []) by (rewrite map_length, seq_length; lia). cbn [bind]. rewrite (nth_map_ok _ _ _ 0) by (rewrite seq_length; lia). rewrite seq_nth by lia. cbn [plus]. rewrite (rd_nth _ r []) by (rewrite map_length, seq_length; lia). rewrite (nth_map_ok _ _ _ 0) by (rewrite seq_length; lia). rewrite seq_nth by lia. reflexivity. }
    cbn [bind]. apply receive_ok. lia.
  Qed.
  Lemma result_row r : r < np -> nth r result [] = puts (nth r data []) (flat_map (updt r) (seq 1 (length (nth r H []) - 1))).
  Proof. intros Hr. unfold result. rewrite (nth_map_ok _ _ _ 0) by now rewrite seq_length. now rewrite seq_nth. Qed.
  Lemma result_size : sizes_fit H n result.
  Proof. split. unfold result. now rewrite map_length, seq_length. intros r Hr. unfold size. rewrite result_row, puts_length by auto. now apply data_len. Qed.
  Lemma result_val r i j l : r < np -> at_vertex H T r i j l -> let D := members r (row H r j) in exists q, In q D /\ (forall x, In x D -> q <= x) /\ val result r i = val data q (node_at H T q D l).
  Proof.
    intros Hr A D. assert (Hj := proj1 A). unfold val. rewrite result_row by auto. set (U := flat_map _ _).
    pose proof (w_row H HW r (row H r j) Hr (nth_In _ _ Hj)) as (W1 & W2 & W3).
    assert (UB : forall p, In p U -> fst p < length (nth r data [])). { intros p I. apply in_flat_map in I as (k & K & I). apply in_seq in K. rewrite data_len by auto. apply (updt_lt r k p Hr); auto; lia. }
    assert (UK : forall x, In (i, x) U -> 1 <= j /\ is_master r (row H r j) = false /\ x = nth l (msg_of (hd 0 (row H r j)) (src r j)) 0%Z).
    { intros x I. apply in_flat_map in I as (k & K & I). apply in_seq in K. assert (Hk : k < length (nth r H [])) by lia. unfold updt in I. destruct (is_master r (row H r k)) eqn:M; [destruct I|]. destruct (in_combine_nth _ _ 0 0%Z i x I) as (t & T1 & _ & T3 & T4). assert (A' : at_vertex H T r i k t). { rewrite T3. now apply ids_at. } destruct (at_uniq H T n HT r i j l k t Hr A A') as (-> & ->). split. lia. auto. }
    destruct (is_master r (row H r j)) eqn:M.
    - exists r. split. apply in_members. now left. split.
      + intros x I. apply in_members in I as [->|I]; auto. destruct (row H r j) as [|d0 d]. destruct I. cbn [is_master] in M. apply Nat.ltb_lt in M. pose proof (sset_hd d x d0 W1 I). lia.
      + rewrite puts_not; auto. assert (SV : same_vertex H T r i r i). { exists j, j, l. split; auto. split; auto. unfold same_class. intros; tauto. } destruct (same_in H T n HW HT r i j l r i Hr Hr A SV) as (_ & Q). unfold val. unfold D. congruence.
        intros I. apply in_map_iff in I as ((i' & x) & Q & I). cbn in Q. subst i'. apply UK in I as (_ & I & _). congruence.
    - assert (J1 : 1 <= j). { destruct j; [|lia]. rewrite (HF r Hr) in M. discriminate. } destruct (src_ok r j Hr (conj J1 Hj) M) as (S1 & S2 & S3 & S4 & S5). set (m := hd 0 (row H r j)) in *. exists m.
      assert (Im : In m D) by (apply in_members; right; now apply hd_in). split; auto. split.
      + intros x I. pose proof (master_below r j Hr Hj M) as LB. apply in_members in I as [->|I]. unfold m. lia. unfold m. destruct (row H r j) as [|d0 d]. destruct I. exact (sset_hd d x d0 W1 I).
      + destruct A as (A1 & A2 & A3). rewrite layout_row in A2, A3 by auto. assert (CI : cidx H m D = src r j). { destruct (cidx_ok H m D (proj2 (cls_mem H HW r j m Hr Hj Im))) as (C1 & C2). apply csame in S4; auto; try lia. apply (cinj H HW m); auto; try lia. rewrite C2. now rewrite S4. }
        rewrite (puts_in U _ i (nth l (msg_of m (src r j)) 0%Z)); auto.
        * unfold msg_of. rewrite (nth_map_ok _ _ _ 0) by lia. unfold val, node_at. rewrite CI, layout_row by (auto; lia). reflexivity.
        * intros y I. now apply UK in I.
        * apply in_map_iff. exists (i, nth l (msg_of m (src r j)) 0%Z). split; auto. apply in_flat_map. exists j. split. apply in_seq. lia. unfold updt. rewrite M. fold m. rewrite <- A3. rewrite <- combine_nth by (unfold msg_of; now rewrite map_length). apply nth_In. rewrite combine_length. unfold msg_of. rewrite map_length. lia.
  Qed.
  Lemma lowest_at r i j l q : r < np -> at_vertex H T r i j l -> let D := members r (row H r j) in In q D -> (forall x, In x D -> q <= x) -> same_vertex H T r i q (node_at H T q D l) /\ lowest H T q (node_at H T q D l).
  Proof.
    intros Hr A D Iq LO. destruct (node_at_ok H T n HW HT r i j l q Hr A Iq) as (B & C). split; auto. destruct (cls_mem H HW r j q Hr (proj1 A) Iq) as (Hq & Z). destruct (cidx_ok H q D Z) as (C1 & C2).
    intros x v' Hx SV. destruct (same_in H T n HW HT q _ _ l x v' Hq Hx B SV) as (I & _). apply LO. exact (eq_rect _ (fun Z => In x Z) I _ C2).
  Qed.
  Lemma scatter_ok : exists v, ScatterNodalData H EN CN data = Ret v /\ sizes_fit H n v /\ values_agree H T v /\
    forall r i, r < np -> i < n r -> exists q i', same_vertex H T r i q i' /\ lowest H T q i' /\ val v r i = val data q i'.
  Proof.
    exists result. split. apply scatter_eq. split. apply result_size. split.
    - intros r i r' i' Hr Hr' (j & j' & l & A & B & SC). apply (csame H HW) in SC; auto; try apply A; try apply B. destruct (result_val r i j l Hr A) as (q & Q1 & Q2 & Q3). destruct (result_val r' i' j' l Hr' B) as (q' & R1 & R2 & R3). rewrite Q3, R3. assert (q = q'). { rewrite <- SC in R1, R2. specialize (Q2 _ R1). specialize (R2 _ Q1). lia. } subst q'. now rewrite SC.
    - intros r i Hr Hi. destruct (at_ex H T n HT r i Hr Hi) as (j & l & A). destruct (result_val r i j l Hr A) as (q & Q1 & Q2 & Q3). exists q, (node_at H T q (members r (row H r j)) l). destruct (lowest_at r i j l q Hr A Q1 Q2). auto.
  Qed.
End S.
