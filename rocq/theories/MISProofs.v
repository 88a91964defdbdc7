(** Proofs about the MIS agglomeration model. *)
From Verif Require Import Base ArraysModel ArraysProofs MISModel.
Local Open Scope nat_scope.

Record graph_ok (G : graph) : Prop := {
  g_adj : length (adj G) = NV G; g_eqc : length (eqc G) = NV G;
  g_row : forall v, v < NV G -> NoDup (nth v (adj G) []) /\ forall w, In w (nth v (adj G) []) -> w < NV G /\ w <> v;
  g_sym : forall v w, v < NV G -> In w (nth v (adj G) []) -> In v (nth w (adj G) []);
  g_solid : forall b, solid G = Some b -> length b = NV G;
  g_free : forall b, free G = Some b -> length b = NV G;
  g_refl : forall e, leq G e e = true;
  g_trans : forall a b c, leq G a b = true -> leq G b c = true -> leq G a c = true }.
Record oracle_ok (O : oracle) : Prop := {
  ok_trace : forall c n, Permutation (o_trace O c n) (seq 0 n);
  ok_sort : forall c keys l, Permutation (o_sort O c keys l) l;
  ok_pick : forall c n, 0 < n -> o_pick O c n < n }.

(** connected through neighbours inside of a set of vertices *)
Inductive path (G : graph) (ms : list nat) : nat -> nat -> Prop :=
| p_here x : In x ms -> path G ms x x
| p_step x y z : path G ms x y -> In z ms -> In z (nth y (adj G) []) -> path G ms x z.
Lemma path_mono G ms ms' x y : (forall a, In a ms -> In a ms') -> path G ms x y -> path G ms' x y.
Proof. intros H. induction 1; [constructor; auto|econstructor; eauto]. Qed.

Lemma mem_in x l : mem x l = true <-> In x l.
Proof. unfold mem. rewrite existsb_exists. split; [intros (y & H & E); apply Nat.eqb_eq in E; now subst|intros; exists x; split; auto using Nat.eqb_refl]. Qed.
Lemma mem_out x l : mem x l = false <-> ~ In x l.
Proof. rewrite <- mem_in. now destruct (mem x l). Qed.
Lemma perm_map_to l l' : Permutation l (map Z.of_nat l') -> Permutation (map Z.to_nat l) l'.
Proof. intros H. apply (Permutation_map Z.to_nat) in H. rewrite map_map in H. rewrite (map_ext _ (fun x => x)) in H by (intros; apply Nat2Z.id). now rewrite map_id in H. Qed.
Lemma add_sort_ok v a : StronglySorted lt a -> ~ In v a -> exists a', add_sort v a = Ret a' /\ StronglySorted lt a' /\ Permutation a' (v :: a).
Proof.
  intros HS HN. unfold add_sort.
  assert (HZ : StronglySorted Z.le (map Z.of_nat a)).
  { clear HN. induction HS as [|x l H IH HF]; cbn; constructor; auto. rewrite Forall_forall in *. intros y Hy. apply in_map_iff in Hy as (z & <- & Hz). specialize (HF z Hz). lia. }
  destruct (insert_into_sorted_array_spec (Z.of_nat v) _ HZ) as (r & Er & Sr & Pr). rewrite Er. cbn [bind]. exists (map Z.to_nat r). split; auto.
  assert (P : Permutation (map Z.to_nat r) (v :: a)) by (apply perm_map_to; exact Pr). split; auto.
  assert (ND : NoDup (map Z.to_nat r)). { apply (Permutation_NoDup (Permutation_sym P)). constructor; auto. clear -HS. induction HS as [|x l H IH HF]; constructor; auto. rewrite Forall_forall in HF. intros X. specialize (HF x X). lia. }
  clear P Er. assert (POS : forall x, In x r -> (0 <= x)%Z). { intros x Hx. apply (Permutation_in _ Pr) in Hx. destruct Hx as [<-|Hx]; [lia|]. apply in_map_iff in Hx as (y & <- & _). lia. }
  clear Pr. induction Sr as [|x l H IH HF]; cbn; constructor.
  - apply IH. now inversion ND. intros; apply POS; now right.
  - rewrite Forall_forall in *. intros y Hy. apply in_map_iff in Hy as (z & <- & Hz). pose proof (HF z Hz). pose proof (POS x (or_introl eq_refl)).
    assert (Z.to_nat x <> Z.to_nat z). { inversion ND as [|? ? N _]; subst. intros X. apply N. rewrite X. now apply in_map. } lia.
Qed.

Lemma skipn_add {A} (l : list A) : forall a b, skipn a (skipn b l) = skipn (a + b) l.
Proof. induction l as [|x l IH]; intros a b. now rewrite !skipn_nil. destruct b; cbn. now rewrite Nat.add_0_r. rewrite Nat.add_succ_r. cbn. apply IH. Qed.
Lemma nth_skipn_add {A} (l : list A) d : forall a i, nth i (skipn a l) d = nth (a + i) l d.
Proof. induction l as [|x l IH]; intros [|a] i; cbn; auto. now destruct i. Qed.
Lemma firstn_S_nth {A} d : forall q (l : list A), q < length l -> firstn (S q) l = firstn q l ++ [nth q l d].
Proof. induction q as [|q IH]; intros [|x l] H; cbn in *; try lia; auto. f_equal. apply (IH l). lia. Qed.

Lemma NoDup_app_remove_r {A} (l l' : list A) : NoDup (l ++ l') -> NoDup l.
Proof. induction l as [|x l IH]; cbn; intros H. constructor. inversion H; subst. constructor; auto. intros X. apply H2, in_or_app. now left. Qed.
Lemma NoDup_app_remove_l {A} (l l' : list A) : NoDup (l ++ l') -> NoDup l'.
Proof. induction l as [|x l IH]; cbn; auto. intros H. apply IH. now inversion H. Qed.

Section MIS.
  Variables (O : oracle) (G : graph).
  Hypotheses (HO : oracle_ok O) (HG : graph_ok G).
  Notation n := (NV G).
  Notation row v := (nth v (adj G) []).
  Notation eq v := (nth v (eqc G) 0).
  Definition mine (v : nat) : bool := match solid G with Some b => nth v b false | None => master G (eq v) end.
  (** what can be in an agglomerate: unblocked vertices, and my vertices that are the only neighbour of an unblocked vertex *)
  Definition can (v : nat) : Prop := blocked G v = false \/ (mine v = true /\ exists w, w < n /\ row w = [v] /\ blocked G w = false /\ mine w = true /\ leq G (eq w) (eq v) = true).

  Record Inv (s : st) : Prop := {
    i_mk : length (marked s) = n; i_va : length (v2a s) = n; i_di : length (dist s) = n;
    i_cons : forall v k, nth v (v2a s) None = Some k <-> exists a, nth_error (aggs s) k = Some a /\ In v (mems a);
    i_agg : forall k a, nth_error (aggs s) k = Some a -> StronglySorted lt (mems a) /\ In (ctr a) (mems a) /\
              forall v, In v (mems a) -> path G (mems a) (ctr a) v /\ leq G (eq v) (eq (ctr a)) = true;
    i_mark : forall v k, nth v (v2a s) None = Some k -> nth v (marked s) false = true;
    i_blk : forall v, v < n -> nth v (marked s) false = true -> blocked G v = true \/ nth v (v2a s) None <> None;
    i_blk2 : forall v, v < n -> blocked G v = true -> nth v (marked s) false = true;
    i_can : forall v k, nth v (v2a s) None = Some k -> can v }.
  (** only dist and the call counter may have changed *)
  Definition same (s s' : st) : Prop := marked s' = marked s /\ v2a s' = v2a s /\ aggs s' = aggs s /\ length (dist s') = length (dist s).
  (** agglomerated vertices stay where they are, marks stay *)
  Definition ext0 (s s' : st) : Prop := (forall v k, nth v (v2a s) None = Some k -> nth v (v2a s') None = Some k) /\ (forall v, nth v (marked s) false = true -> nth v (marked s') false = true) /\ length (aggs s) <= length (aggs s').
  (** all agglomerates have two members, but for some *)
  Definition K (P : nat -> nat -> Prop) (s : st) : Prop := forall j a, nth_error (aggs s) j = Some a -> 2 <= length (mems a) \/ P j (ctr a).
  Definition ext (s s' : st) : Prop := ext0 s s' /\ forall P, K P s -> K P s'.
  Lemma same_inv s s' : same s s' -> Inv s -> Inv s'.
  Proof. intros (H1 & H2 & H3 & H4) [I1 I2 I3 I4 I5 I6 I7 I8 I9]. constructor; rewrite ?H1, ?H2, ?H3, ?H4; auto. Qed.
  Lemma same_refl s : same s s. Proof. repeat split. Qed.
  Lemma same_trans s s' s'' : same s s' -> same s' s'' -> same s s''.
  Proof. intros (A1 & A2 & A3 & A4) (B1 & B2 & B3 & B4). repeat split; congruence. Qed.
  Lemma same_ask s : same s (snd (ask O s)). Proof. repeat split. Qed.
  Lemma same_ext s s' : same s s' -> ext s s'.
  Proof. intros (H1 & H2 & H3 & H4). split; [split; [|split]; rewrite ?H1, ?H2, ?H3; auto|]. intros P. unfold K. now rewrite H3. Qed.
  Lemma same_ext0 s s' : same s s' -> ext0 s s'. Proof. intros H. now apply same_ext in H as (H & _). Qed.
  Lemma ext_refl s : ext s s. Proof. apply same_ext, same_refl. Qed.
  Lemma ext_trans s s' s'' : ext s s' -> ext s' s'' -> ext s s''.
  Proof. intros ((A & B & C) & D) ((A' & B' & C') & D'). split; [split; [|split]; auto; lia|auto]. Qed.
  Lemma ext0_trans s s' s'' : ext0 s s' -> ext0 s' s'' -> ext0 s s''.
  Proof. intros (A & B & C) (A' & B' & C'). split; [|split]; auto; lia. Qed.
  Lemma nth_v2a_lt s v k : Inv s -> nth v (v2a s) None = Some k -> v < n.
  Proof. intros I H. destruct (Nat.lt_ge_cases v n); auto. rewrite nth_overflow in H by (rewrite (i_va s I); auto). discriminate. Qed.
  Lemma v2a_agg s v k : Inv s -> nth v (v2a s) None = Some k -> k < length (aggs s).
  Proof. intros I H. apply (i_cons s I) in H as (a & Ha & _). apply nth_error_Some. congruence. Qed.
  Lemma unmarked_none s v : Inv s -> nth v (marked s) false = false -> nth v (v2a s) None = None.
  Proof. intros I H. destruct (nth v (v2a s) None) eqn:E; auto. apply (i_mark s I) in E. congruence. Qed.
  Lemma unmarked_can s v : Inv s -> v < n -> nth v (marked s) false = false -> can v /\ blocked G v = false.
  Proof. intros I Hv H. assert (blocked G v = false). { destruct (blocked G v) eqn:B; auto. apply (i_blk2 s I v Hv) in B. congruence. } split; auto. now left. Qed.
  Lemma rd_row v : v < n -> rd (adj G) v = Ret (row v).
  Proof. intros H. apply rd_ok. now rewrite (g_adj G HG). Qed.
  Lemma rd_eqc v : v < n -> rd (eqc G) v = Ret (eq v).
  Proof. intros H. apply rd_ok. now rewrite (g_eqc G HG). Qed.
  Lemma mine_ok v : v < n -> is_mine G v = Ret (mine v).
  Proof.
    intros H. unfold is_mine, mine. destruct (solid G) as [b|] eqn:E. apply rd_ok. now rewrite (g_solid G HG b E). rewrite rd_eqc by auto. reflexivity.
  Qed.
  Lemma foreign_mine v : foreign G v = true -> mine v = false.
  Proof. unfold foreign, mine. destruct (solid G). intros H. apply andb_true_iff in H as (_ & H). now destruct (nth v l false). now destruct (master G (eq v)). Qed.

  (** *** adding a member *)
  Lemma add_member_ok s k N d a : Inv s -> nth_error (aggs s) k = Some a -> N < n -> nth N (v2a s) None = None -> can N -> (exists m, In m (mems a) /\ In N (row m)) -> leq G (eq N) (eq (ctr a)) = true ->
    exists s' a', add_member s k N d = Ret s' /\ Inv s' /\ ext s s' /\ v2a s' = upd (v2a s) N (Some k) /\ marked s' = upd (marked s) N true /\
      nth_error (aggs s') k = Some a' /\ ctr a' = ctr a /\ Permutation (mems a') (N :: mems a) /\ length (aggs s') = length (aggs s) /\ calls s' = calls s.
  Proof.
    intros I Ha HN HV HC (m & Hm & Hadj) Hleq. unfold add_member. destruct (i_agg s I k a Ha) as (SA & CA & PA).
    assert (NI : ~ In N (mems a)). { intros X. assert (nth N (v2a s) None = Some k) by (apply (i_cons s I); eauto). congruence. }
    destruct (add_sort_ok N (mems a) SA NI) as (ms & Em & Sm & Pm).
    assert (Hk : k < length (aggs s)) by (apply nth_error_Some; congruence).
    rewrite !wr_ok by (rewrite ?(i_va s I), ?(i_di s I), ?(i_mk s I); auto). cbn [bind]. unfold rd at 1. rewrite Ha. cbn [bind]. rewrite Em. cbn [bind]. rewrite wr_ok by auto. cbn [bind].
    set (a' := mkAgg (ctr a) ms). exists (mkSt (upd (marked s) N true) (upd (v2a s) N (Some k)) (upd (dist s) N d) (upd (aggs s) k a') (calls s)), a'.
    split; [reflexivity|]. cbn [v2a marked aggs dist calls].
    assert (MK : forall v, nth v (upd (marked s) N true) false = true <-> v = N \/ nth v (marked s) false = true).
    { intros v. destruct (Nat.eq_dec v N) as [->|NE]. rewrite nth_upd_eq by (rewrite (i_mk s I); auto). tauto. rewrite nth_upd_neq by auto. tauto. }
    assert (VA : forall v j, nth v (upd (v2a s) N (Some k)) None = Some j <-> (v = N /\ j = k) \/ nth v (v2a s) None = Some j).
    { intros v j. destruct (Nat.eq_dec v N) as [->|NE].
      - rewrite nth_upd_eq by (rewrite (i_va s I); auto). rewrite HV. split; [intros [= ->]; auto|intros [(_ & ->)|X]; [auto|discriminate]].
      - rewrite nth_upd_neq by auto. split; auto. intros [(X & _)|X]; auto. contradiction. }
    assert (AG : forall j b, nth_error (upd (aggs s) k a') j = Some b <-> (j = k /\ b = a') \/ (j <> k /\ nth_error (aggs s) j = Some b)).
    { intros j b. destruct (Nat.eq_dec j k) as [->|NE].
      - rewrite nth_error_upd_eq by auto. split; [intros [= <-]; auto|intros [(_ & ->)|(X & _)]; [auto|contradiction]].
      - rewrite nth_error_upd_neq by auto. split; auto. intros [(X & _)|(_ & X)]; auto. contradiction. }
    split; [|split; [|split; [reflexivity|split; [reflexivity|split; [|split; [reflexivity|split; [exact Pm|split; [apply upd_length|reflexivity]]]]]]]].
    - constructor; cbn [v2a marked aggs dist]; rewrite ?upd_length; try apply I.
      + intros v j. rewrite VA. split.
        * intros [(-> & ->)|H]. { exists a'. split. apply AG; auto. apply (Permutation_in _ (Permutation_sym Pm)). now left. }
          apply (i_cons s I) in H as (b & Hb & Hin). destruct (Nat.eq_dec j k) as [->|NE].
          { exists a'. split. apply AG; auto. apply (Permutation_in _ (Permutation_sym Pm)). right. congruence. } { exists b. split; auto. apply AG; auto. }
        * intros (b & Hb & Hin). apply AG in Hb as [(-> & ->)|(NE & Hb)].
          { apply (Permutation_in _ Pm) in Hin. destruct Hin as [<-|Hin]; auto. right. apply (i_cons s I). eauto. } { right. apply (i_cons s I). eauto. }
      + intros j b Hb. apply AG in Hb as [(-> & ->)|(NE & Hb)]; [|apply (i_agg s I j b Hb)]. cbn [mems ctr a'].
        assert (MO : forall x, In x (mems a) -> In x ms) by (intros x Hx; apply (Permutation_in _ (Permutation_sym Pm)); now right).
        split; auto. split; auto. intros v Hv. apply (Permutation_in _ Pm) in Hv. destruct Hv as [<-|Hv].
        { split; auto. apply p_step with m; auto. apply path_mono with (mems a); auto. apply PA; auto. apply (Permutation_in _ (Permutation_sym Pm)). now left. }
        { destruct (PA v Hv). split; auto. apply path_mono with (mems a); auto. }
      + intros v j H. apply VA in H. apply MK. destruct H as [(-> & _)|H]; auto. right. now apply (i_mark s I v j).
      + intros v Hv H. apply MK in H. destruct H as [->|H]. { right. intros X. assert (nth N (upd (v2a s) N (Some k)) None = Some k) by (apply VA; auto). congruence. }
        destruct (i_blk s I v Hv H) as [X|X]; auto. right. destruct (nth v (v2a s) None) as [j|] eqn:E; [|contradiction]. intros Y. assert (nth v (upd (v2a s) N (Some k)) None = Some j) by (apply VA; auto). congruence.
      + intros v Hv H. apply MK. right. now apply (i_blk2 s I).
      + intros v j H. apply VA in H. destruct H as [(-> & _)|H]; auto. now apply (i_can s I v j).
    - split; [split; [|split]; cbn [v2a marked aggs]; [intros; apply VA; auto|intros; apply MK; auto|rewrite upd_length; auto]|].
      intros P HK j b Hb. cbn [aggs] in Hb. apply AG in Hb as [(-> & ->)|(NE & Hb)]; [|now apply HK]. left. cbn. rewrite (Permutation_length Pm). cbn. destruct (mems a); [contradiction|cbn; lia].
    - apply AG; auto.
  Qed.

  Lemma may_check_ok s veq N : Inv s -> N < n -> may_check G s veq N = Ret (negb (nth N (marked s) false) && leq G (eq N) veq).
  Proof. intros I H. unfold may_check. rewrite (rd_ok _ _ false) by (rewrite (i_mk s I); auto). cbn [bind]. destruct (nth N (marked s) false); auto. rewrite rd_eqc by auto. reflexivity. Qed.

  (** *** growing a new agglomerate around v *)
  Section Grow.
    Variables (v k : nat).
    Hypothesis (Hv : v < n).
    (** the new agglomerate: centre v *)
    Definition has_agg (s : st) (m : nat) : Prop := exists a, nth_error (aggs s) k = Some a /\ ctr a = v /\ length (mems a) = m.
    Lemma in_row N : In N (row v) -> N < n.
    Proof. intros H. now destruct (g_row G HG v Hv) as (_ & X); apply X. Qed.
    Lemma ctr_in s a : Inv s -> nth_error (aggs s) k = Some a -> ctr a = v -> In v (mems a).
    Proof. intros I Ha Hc. destruct (i_agg s I k a Ha) as (_ & X & _). congruence. Qed.
    Lemma join_new s m N : Inv s -> has_agg s m -> In N (row v) -> nth N (marked s) false = false -> leq G (eq N) (eq v) = true ->
      exists s', add_member s k N 1 = Ret s' /\ Inv s' /\ ext s s' /\ has_agg s' (S m) /\ marked s' = upd (marked s) N true /\ length (aggs s') = length (aggs s).
    Proof.
      intros I (a & Ha & Hc & Hm) HN HU HL. destruct (add_member_ok s k N 1 a I Ha) as (s' & a' & E & I' & X & V' & M' & A' & C' & P' & L' & _); auto.
      - now apply in_row.
      - now apply unmarked_none.
      - apply (unmarked_can s); auto. now apply in_row.
      - exists v. split; auto. apply (ctr_in s a); auto.
      - now rewrite Hc.
      - exists s'. split; auto. split; auto. split; auto. split; [|auto]. exists a'. split; auto. split; [congruence|]. rewrite (Permutation_length P'). cbn. lia.
    Qed.
    Lemma first_neib_ok js : forall s, Inv s -> has_agg s 1 -> (forall j, In j js -> j < length (row v)) ->
      exists o s', first_neib O G k (eq v) (row v) js s = Ret (o, s') /\ Inv s' /\ ext s s' /\
        match o with None => same s s' | Some j => j < length (row v) /\ has_agg s' 2 /\ length (aggs s') = length (aggs s) end.
    Proof.
      induction js as [|j js IH]; intros s I HA HJ; cbn [first_neib].
      - exists None, s. split; auto. split; auto. split. apply ext_refl. apply same_refl.
      - assert (Hj : j < length (row v)) by (apply HJ; now left). assert (HN : In (nth j (row v) 0) (row v)) by now apply nth_In.
        rewrite (rd_ok _ _ 0) by auto. cbn [bind]. rewrite may_check_ok by (auto; now apply in_row). cbn [bind].
        assert (HJ' : forall i, In i js -> i < length (row v)) by (intros; apply HJ; now right).
        destruct (negb (nth (nth j (row v) 0) (marked s) false) && leq G (eq (nth j (row v) 0)) (eq v)) eqn:B; [|apply IH; auto].
        apply andb_true_iff in B as (B1 & B2). apply negb_true_iff in B1.
        destruct (ask O s) as [ok s1] eqn:Ea. pose proof (same_ask s) as SA. rewrite Ea in SA. cbn [snd] in SA. pose proof (same_inv _ _ SA I) as I1.
        assert (HA1 : has_agg s1 1) by (destruct SA as (_ & _ & A3 & _); unfold has_agg; now rewrite A3).
        destruct ok.
        + destruct (join_new s1 1 (nth j (row v) 0) I1 HA1 HN) as (s2 & E2 & I2 & X2 & A2 & M2 & L2); auto.
          { destruct SA as (A1 & _). now rewrite A1. }
          rewrite E2. cbn [bind]. exists (Some j), s2. split; auto. split; auto. split; [eapply ext_trans; [apply same_ext; exact SA|exact X2]|]. split; auto. split; auto.
          destruct SA as (_ & _ & A3 & _). now rewrite L2, A3.
        + destruct (IH s1 I1 HA1 HJ') as (o & s2 & E2 & I2 & X2 & R2). exists o, s2. split; auto. split; auto. split; [eapply ext_trans; [apply same_ext; exact SA|exact X2]|].
          destruct o as [i|]; [|eapply same_trans; eauto]. destruct R2 as (R2 & R3 & R4). split; auto. split; auto. destruct SA as (_ & _ & A3 & _). now rewrite R4, A3.
    Qed.
    (** candidates: positions of unmarked neighbours *)
    Definition good_cand (s : st) (j : nat) : Prop := j < length (row v) /\ nth (nth j (row v) 0) (marked s) false = false /\ leq G (eq (nth j (row v) 0)) (eq v) = true.
    Lemma candidates_ok s r : forall i, Inv s -> skipn i (row v) = r -> exists qs cnt, candidates G s (eq v) r i = Ret (qs, cnt) /\ length cnt = length r /\ NoDup qs /\
      (forall j, In j qs -> i <= j /\ good_cand s j).
    Proof.
      induction r as [|N r IH]; intros i I HR; cbn [candidates].
      - exists [], []. split; [reflexivity|]. split; [reflexivity|]. split; [constructor|]. intros j [].
      - assert (Hi : i < length (row v)). { destruct (Nat.lt_ge_cases i (length (row v))); auto. rewrite skipn_all2 in HR by auto. discriminate. }
        assert (EN : N = nth i (row v) 0). { rewrite <- (firstn_skipn i (row v)), HR at 1. rewrite app_nth2 by (rewrite firstn_length; lia). rewrite firstn_length. now replace (i - Nat.min i (length (row v))) with 0 by lia. }
        assert (ER : skipn (S i) (row v) = r). { change (S i) with (1 + i). rewrite <- skipn_add. now rewrite HR. }
        rewrite may_check_ok by (auto; apply in_row; rewrite EN; now apply nth_In). cbn [bind].
        destruct (IH (S i) I ER) as (qs & cnt & E & L & ND & HQ). rewrite E. cbn [bind fst snd].
        destruct (negb (nth N (marked s) false) && leq G (eq N) (eq v)) eqn:B.
        + exists (i :: qs), (1%Z :: cnt). split; auto. split; [cbn; lia|]. split. { constructor; auto. intros X. apply HQ in X. lia. }
          intros j [<-|Hj]. { split; auto. apply andb_true_iff in B as (B1 & B2). apply negb_true_iff in B1. rewrite EN in B1, B2. split; auto. } { destruct (HQ j Hj). split; auto. lia. }
        + exists qs, ((-1)%Z :: cnt). split; auto. split; [cbn; lia|]. split; auto. intros j Hj. destruct (HQ j Hj). split; auto. lia.
    Qed.
    Lemma bump_len r1 r2 c : length c = length r1 -> length (bump r1 r2 c) = length r1.
    Proof. intros H. unfold bump. rewrite map_length, combine_length. lia. Qed.
    Lemma part_perm s cnt fv q qs : fv + q <= length qs -> exists p, sort_part O s cnt fv q qs = firstn fv qs ++ p ++ skipn (fv + q) qs /\ Permutation p (firstn q (skipn fv qs)) /\ length p = q.
    Proof.
      intros H. exists (o_sort O (calls s) cnt (firstn q (skipn fv qs))). split; auto. split. apply HO. rewrite (Permutation_length (ok_sort O HO _ _ _)), firstn_length, skipn_length. lia.
    Qed.
    Lemma grow_ok qss : forall fv qs cnt cm s, Inv s -> has_agg s cm -> 2 <= cm -> fv + qss <= length qs -> length cnt = length (row v) ->
      NoDup (firstn qss (skipn fv qs)) -> (forall j, In j (firstn qss (skipn fv qs)) -> good_cand s j) ->
      exists cm' s', grow O G k (row v) fv qss qs cnt cm s = Ret (cm', s') /\ Inv s' /\ ext s s' /\ has_agg s' cm' /\ 2 <= cm' /\ length (aggs s') = length (aggs s).
    Proof.
      induction qss as [|q IH]; intros fv qs cnt cm s I HA Hcm HL HC ND HQ; cbn [grow].
      - exists cm, s. split; auto. split; auto. split. apply ext_refl. auto.
      - set (part := firstn (S q) (skipn fv qs)) in *.
        assert (LP : length part = S q) by (unfold part; rewrite firstn_length, skipn_length; lia).
        set (j := nth (fv + q) qs 0).
        assert (EP : part = firstn q (skipn fv qs) ++ [j]).
        { unfold part. rewrite (firstn_S_nth 0 q (skipn fv qs)) by (rewrite skipn_length; lia). f_equal. f_equal. unfold j. now rewrite nth_skipn_add. }
        assert (GJ : good_cand s j) by (apply HQ; rewrite EP; apply in_or_app; right; now left). destruct GJ as (J1 & J2 & J3).
        rewrite (rd_ok qs _ 0) by lia. fold j. cbn [bind]. rewrite (rd_ok (row v) _ 0) by auto. cbn [bind].
        destruct (ask O s) as [ok s1] eqn:Ea. pose proof (same_ask s) as SA. rewrite Ea in SA. cbn [snd] in SA. pose proof (same_inv _ _ SA I) as I1.
        assert (HA1 : has_agg s1 cm) by (destruct SA as (_ & _ & A3 & _); unfold has_agg; now rewrite A3).
        assert (MK : marked s1 = marked s) by apply SA. assert (LA : aggs s1 = aggs s) by apply SA.
        rewrite wr_ok by lia. cbn [bind].
        assert (ND' : NoDup (firstn q (skipn fv qs)) /\ ~ In j (firstn q (skipn fv qs))).
        { rewrite EP in ND. apply NoDup_remove in ND. rewrite app_nil_r in ND. exact ND. }
        destruct ND' as (ND1 & ND2).
        destruct ok.
        + destruct (join_new s1 cm (nth j (row v) 0) I1 HA1) as (s2 & E2 & I2 & X2 & A2 & M2 & L2); auto. now apply nth_In. now rewrite MK.
          rewrite E2. cbn [bind]. rewrite rd_row by (apply in_row; now apply nth_In). cbn [bind].
          destruct (part_perm s2 (bump (row v) (row (nth j (row v) 0)) (upd cnt j (-1)%Z)) fv q qs ltac:(lia)) as (p & Ep & Pp & Lp). rewrite Ep.
          assert (LF : length (firstn fv qs) = fv) by (rewrite firstn_length; lia).
          assert (PART : firstn q (skipn fv (firstn fv qs ++ p ++ skipn (fv + q) qs)) = p).
          { rewrite skipn_app, LF, Nat.sub_diag, skipn_all2 by lia. cbn [app skipn]. rewrite firstn_app, Lp, Nat.sub_diag, firstn_all2 by lia. cbn. now rewrite app_nil_r. }
          destruct (IH fv (firstn fv qs ++ p ++ skipn (fv + q) qs) (bump (row v) (row (nth j (row v) 0)) (upd cnt j (-1)%Z)) (S cm) s2) as (cm' & s' & E' & I' & X' & A' & G' & L'); auto.
          * rewrite !app_length, LF, Lp, skipn_length. lia.
          * apply bump_len. now rewrite upd_length.
          * rewrite PART. apply (Permutation_NoDup (Permutation_sym Pp)). exact ND1.
          * rewrite PART. intros i Hi. apply (Permutation_in _ Pp) in Hi. destruct (HQ i) as (Q1 & Q2 & Q3). { rewrite EP. apply in_or_app. now left. }
            split; auto. split; auto. rewrite M2, MK. rewrite nth_upd_neq; auto. intros X.
            assert (ij : i = j). { apply (proj1 (NoDup_nth (row v) 0)); auto. apply (g_row G HG v Hv). } subst i. contradiction.
          * exists cm', s'. split; auto. split; auto. split; [|split; auto; split; auto; congruence]. eapply ext_trans; [|exact X']. eapply ext_trans; [apply same_ext; exact SA|exact X2].
        + destruct (IH fv qs (upd cnt j (-1)%Z) cm s1) as (cm' & s' & E' & I' & X' & A' & G' & L'); auto. lia. now rewrite upd_length.
          * intros i Hi. destruct (HQ i) as (Q1 & Q2 & Q3). { rewrite EP. apply in_or_app. now left. } split; auto. now rewrite MK.
          * exists cm', s'. split; auto. split; auto. split; [|split; auto; split; auto; congruence]. eapply ext_trans; [apply same_ext; exact SA|exact X'].
    Qed.
    Lemma grow_agg_ok s : Inv s -> has_agg s 1 -> exists cm s', grow_agg O G k (eq v) (row v) s = Ret (cm, s') /\ Inv s' /\ ext s s' /\ length (aggs s') = length (aggs s) /\ ((cm = 1 /\ same s s') \/ 2 <= cm) /\ (2 <= cm -> has_agg s' cm).
    Proof.
      intros I HA. unfold grow_agg. destruct (first_neib_ok (o_trace O (calls s) (length (row v))) s I HA) as (o & s1 & E1 & I1 & X1 & R1).
      { intros j Hj. apply (Permutation_in _ (ok_trace O HO _ _)) in Hj. apply in_seq in Hj. lia. }
      rewrite E1. cbn [bind]. destruct o as [j1|].
      2:{ exists 1, s1. split; auto. split; auto. split; auto. split; [f_equal; apply R1|]. split; auto. lia. }
      destruct R1 as (Hj1 & HA1 & LA1). destruct (candidates_ok s1 (row v) 0 I1 eq_refl) as (qs & cnt & Ec & Lc & NDq & Hq). rewrite Ec. cbn [bind].
      rewrite (rd_ok (row v) _ 0) by auto. cbn [bind]. rewrite rd_row by (apply in_row; now apply nth_In). cbn [bind].
      set (row1 := row (nth j1 (row v) 0)). set (c1 := bump (row v) row1 cnt). assert (Lc1 : length c1 = length (row v)) by (apply bump_len; auto).
      destruct (if dist2 G then (c1, 0) else lock (row v) row1 c1) as [c2 inc] eqn:EL.
      assert (Lc2 : length c2 = length (row v)). { destruct (dist2 G). injection EL as <- <-. auto. unfold lock in EL. injection EL as <- _. rewrite map_length, combine_length. lia. }
      set (m := length qs). destruct (part_perm s1 c2 0 m qs ltac:(unfold m; lia)) as (p & Ep & Pp & Lp). rewrite Ep. cbn [firstn app]. cbn [skipn] in Pp. unfold m in Pp. rewrite firstn_all in Pp.
      rewrite Nat.add_0_l. unfold m. rewrite skipn_all, app_nil_r. fold m.
      destruct (Nat.le_gt_cases inc m) as [Hinc|Hinc].
      - assert (PP : firstn (m - inc) (skipn inc p) = skipn inc p) by (apply firstn_all2; rewrite skipn_length; lia).
        destruct (grow_ok (m - inc) inc p c2 2 s1) as (cm & s' & E' & I' & X' & A' & G' & L'); auto. lia.
        + rewrite PP. apply (Permutation_NoDup (Permutation_sym Pp)) in NDq. rewrite <- (firstn_skipn inc p) in NDq. revert NDq. generalize (firstn inc p). induction l; cbn; auto. intros X. apply IHl. now inversion X.
        + rewrite PP. intros j Hj. apply Hq. apply (Permutation_in _ Pp). rewrite <- (firstn_skipn inc p). apply in_or_app. now right.
        + exists cm, s'. split; auto. split; auto. split; [eapply ext_trans; eauto|]. split; [congruence|]. auto.
      - replace (m - inc) with 0 by lia. cbn [grow]. exists 2, s1. split; [reflexivity|]. split; [exact I1|]. split; [exact X1|]. split; [exact LA1|]. split; [right; lia|auto].
    Qed.
  End Grow.

  Lemma start_ok s v : Inv s -> v < n -> nth v (v2a s) None = None -> can v ->
    exists s', start_agg s v = Ret s' /\ Inv s' /\ ext0 s s' /\ (forall P, K P s -> K (fun j c => P j c \/ (j = length (aggs s) /\ c = v)) s') /\ has_agg v (length (aggs s)) s' 1 /\ length (aggs s') = S (length (aggs s)) /\ nth v (v2a s') None = Some (length (aggs s)) /\
      v2a s' = upd (v2a s) v (Some (length (aggs s))) /\ marked s' = upd (marked s) v true /\ aggs s' = aggs s ++ [mkAgg v [v]].
  Proof.
    intros I Hv HV HC. unfold start_agg. rewrite !wr_ok by (rewrite ?(i_va s I), ?(i_di s I), ?(i_mk s I); auto). cbn [bind]. set (k := length (aggs s)).
    eexists. split; [reflexivity|]. cbn [v2a marked aggs dist].
    assert (MK : forall w, nth w (upd (marked s) v true) false = true <-> w = v \/ nth w (marked s) false = true).
    { intros w. destruct (Nat.eq_dec w v) as [->|NE]. rewrite nth_upd_eq by (rewrite (i_mk s I); auto). tauto. rewrite nth_upd_neq by auto. tauto. }
    assert (VA : forall w j, nth w (upd (v2a s) v (Some k)) None = Some j <-> (w = v /\ j = k) \/ nth w (v2a s) None = Some j).
    { intros w j. destruct (Nat.eq_dec w v) as [->|NE].
      - rewrite nth_upd_eq by (rewrite (i_va s I); auto). rewrite HV. split; [intros [= ->]; auto|intros [(_ & ->)|X]; [auto|discriminate]].
      - rewrite nth_upd_neq by auto. split; auto. intros [(X & _)|X]; auto. contradiction. }
    assert (AG : forall j b, nth_error (aggs s ++ [mkAgg v [v]]) j = Some b <-> (j = k /\ b = mkAgg v [v]) \/ nth_error (aggs s) j = Some b).
    { intros j b. destruct (Nat.lt_trichotomy j k) as [L|[->|L]].
      - rewrite nth_error_app1 by auto. split; auto. intros [(X & _)|X]; auto. lia.
      - rewrite nth_error_app2 by auto. unfold k. rewrite Nat.sub_diag. cbn. split; [intros [= <-]; auto|]. intros [(_ & ->)|X]; auto. exfalso. assert (k < k); [|lia]. apply nth_error_Some. fold k in X. congruence.
      - split; [|intros [(X & _)|X]; [lia|]].
        + intros X. exfalso. assert (j < length (aggs s ++ [mkAgg v [v]])) by (apply nth_error_Some; congruence). rewrite app_length in H. cbn in H. fold k in H. lia.
        + exfalso. assert (j < k) by (apply nth_error_Some; congruence). lia. }
    split; [|split; [|split; [|split; [|split; [|split; [|split; [|split]]]]]]]; auto.
    - constructor; cbn [v2a marked aggs dist]; rewrite ?upd_length; try apply I.
      + intros w j. rewrite VA. split.
        * intros [(-> & ->)|H]. { eexists. split. apply AG; left; eauto. now left. } apply (i_cons s I) in H as (b & Hb & Hin). exists b. split; auto. apply AG; auto.
        * intros (b & Hb & Hin). apply AG in Hb as [(-> & ->)|Hb]. { destruct Hin as [<-|[]]. auto. } right. apply (i_cons s I). eauto.
      + intros j b Hb. apply AG in Hb as [(-> & ->)|Hb]; [|apply (i_agg s I j b Hb)]. cbn. split. repeat constructor. split; auto. intros w [<-|[]]. split. constructor. now left. apply HG.
      + intros w j H. apply VA in H. apply MK. destruct H as [(-> & _)|H]; auto. right. now apply (i_mark s I w j).
      + intros w Hw H. apply MK in H. destruct H as [->|H]. { right. intros X. assert (nth v (upd (v2a s) v (Some k)) None = Some k) by (apply VA; auto). congruence. }
        destruct (i_blk s I w Hw H) as [X|X]; auto. right. destruct (nth w (v2a s) None) as [j|] eqn:E; [|contradiction]. intros Y. assert (nth w (upd (v2a s) v (Some k)) None = Some j) by (apply VA; auto). congruence.
      + intros w Hw H. apply MK. right. now apply (i_blk2 s I).
      + intros w j H. apply VA in H. destruct H as [(-> & _)|H]; auto. now apply (i_can s I w j).
    - split; [|split]; cbn [v2a marked aggs]; [intros; apply VA; auto|intros; apply MK; auto|rewrite app_length; lia].
    - intros P HK j b Hb. cbn [aggs] in Hb. apply AG in Hb as [(-> & ->)|Hb]; [right; right; auto|]. destruct (HK j b Hb); auto.
    - exists (mkAgg v [v]). split; [apply AG; auto|]. auto.
    - rewrite app_length. cbn. lia.
    - apply VA; auto.
  Qed.
  Lemma init_ok s v force : Inv s -> v < n -> nth v (v2a s) None = None -> can v -> (force = true \/ nth v (marked s) false = false) ->
    exists b s', init_agglomerate O G v (eq v) force s = Ret (b, s') /\ Inv s' /\ ext0 s s' /\ (force = true -> nth v (v2a s') None <> None) /\
      (forall P, K P s -> (force = true -> forall j, P j v) -> K P s').
  Proof.
    intros I Hv HV HC HF. unfold init_agglomerate. destruct (start_ok s v I Hv HV HC) as (s1 & E1 & I1 & X1 & K1 & A1 & L1 & V1 & V1' & M1 & G1). rewrite E1. cbn [bind]. rewrite rd_row by auto. cbn [bind].
    destruct (grow_agg_ok v (length (aggs s)) Hv s1 I1 A1) as (cm & s2 & E2 & I2 & X2 & L2 & R2 & A2). destruct X2 as (X2 & K2). rewrite E2. cbn [bind].
    destruct (force || (2 <=? cm)) eqn:B.
    - exists true, s2. split; auto. split; auto. split; [eapply ext0_trans; eauto|]. split. { intros _. destruct X2 as (X2 & _). rewrite (X2 v _ V1). discriminate. }
      intros P HK HP j a Ha. destruct (K2 _ (K1 P HK) j a Ha) as [H|[H|(H1 & H2)]]; auto. apply orb_true_iff in B as [B|B]. { right. rewrite H2. now apply HP. }
      left. apply Nat.leb_le in B. destruct (A2 B) as (a2 & Ha2 & _ & Hl). rewrite H1 in Ha. rewrite Ha in Ha2. injection Ha2 as ->. lia.
    - apply orb_false_iff in B as (B1 & B2). apply Nat.leb_gt in B2. destruct R2 as [(-> & (S1 & S2 & S3 & S4))|R2]; [|lia]. destruct HF as [HF|HF]; [congruence|].
      unfold undo_agg. rewrite S3, G1. unfold rd. rewrite nth_error_app2, Nat.sub_diag by auto. cbn [nth_error bind mems foldM]. rewrite S2, V1', S1, M1.
      rewrite !wr_ok by (rewrite ?upd_length, ?S4, ?(i_va s I), ?(i_mk s I), ?(i_di s1 I1); auto). cbn [bind marked v2a dist aggs calls].
      rewrite S3, G1. rewrite firstn_app, Nat.sub_diag, firstn_all2 by auto. cbn [firstn]. rewrite app_nil_r.
      assert (UV : upd (upd (v2a s) v (Some (length (aggs s)))) v None = v2a s).
      { apply nth_ext with None None; rewrite !upd_length; auto. intros i Hi. destruct (Nat.eq_dec i v) as [->|NE]. rewrite nth_upd_eq by now rewrite upd_length. now rewrite HV. now rewrite !nth_upd_neq by auto. }
      assert (UM : upd (upd (marked s) v true) v false = marked s).
      { apply nth_ext with false false; rewrite !upd_length; auto. intros i Hi. destruct (Nat.eq_dec i v) as [->|NE]. rewrite nth_upd_eq by now rewrite upd_length. now rewrite HF. now rewrite !nth_upd_neq by auto. }
      rewrite UV, UM. eexists false, _. split; [reflexivity|].
      match goal with |- Inv ?s' /\ _ => assert (SS : same s s') end.
      { split; [|split; [|split]]; cbn; auto. rewrite upd_length, S4. rewrite (i_di s1 I1), (i_di s I). auto. }
      split; [eapply same_inv; eauto|]. split; [now apply same_ext0|]. split; [congruence|]. intros P HK _. now apply (same_ext _ _ SS).
  Qed.

  (** *** first loop *)
  Lemma neib_in_agg_ok s e r : Inv s -> (forall w, In w r -> w < n) -> exists b, neib_in_agg G s e r = Ret b.
  Proof.
    intros I. induction r as [|w r IH]; intros H; cbn [neib_in_agg]. now exists false. assert (w < n) by (apply H; now left).
    rewrite (rd_ok _ _ false) by (rewrite (i_mk s I); auto). cbn [bind]. rewrite rd_eqc by auto. cbn [bind]. rewrite (rd_ok _ _ None) by (rewrite (i_va s I); auto). cbn [bind].
    destruct (_ && _ && _); [now exists true|]. apply IH. intros; apply H; now right.
  Qed.
  Lemma row_lt v : v < n -> forall w, In w (row v) -> w < n.
  Proof. intros Hv w Hw. now apply (g_row G HG v Hv). Qed.
  Lemma check_ok s v : Inv s -> v < n -> exists s', check_v O G s v = Ret s' /\ Inv s' /\ ext0 s s'.
  Proof.
    intros I Hv. unfold check_v. rewrite rd_eqc by auto. cbn [bind]. rewrite (rd_ok _ _ false) by (rewrite (i_mk s I); auto). cbn [bind].
    destruct (nth v (marked s) false) eqn:M. exists s. split; auto. split; auto. apply same_ext0, same_refl.
    rewrite rd_row by auto. cbn [bind]. destruct (neib_in_agg_ok s (eq v) (row v) I (row_lt v Hv)) as (b & ->). cbn [bind]. destruct b. exists s. split; auto. split; auto. apply same_ext0, same_refl.
    destruct (init_ok s v false I Hv (unmarked_none s v I M)) as (b & s' & E & I' & X & _); auto. apply (unmarked_can s); auto. rewrite E. cbn. eauto.
  Qed.
  (** *** second loop *)
  Lemma neib_aggs_ok veq r : forall cand notake s, Inv s -> (forall w, In w r -> w < n) ->
    exists c s', neib_aggs O G veq r cand notake s = Ret (c, s') /\ same s s' /\
      forall k, In k c -> In k cand \/ exists a w, nth_error (aggs s) k = Some a /\ leq G veq (eq (ctr a)) = true /\ In w r /\ In w (mems a).
  Proof.
    induction r as [|w r IH]; intros cand notake s I HR; cbn [neib_aggs]. { exists cand, s. split; auto. split; auto. apply same_refl. }
    assert (Hw : w < n) by (apply HR; now left). assert (HR' : forall x, In x r -> x < n) by (intros; apply HR; now right).
    assert (WK : forall cand notake s1, same s s1 -> (forall k, In k cand -> True) -> exists c s', neib_aggs O G veq r cand notake s1 = Ret (c, s') /\ same s s' /\
      forall k, In k c -> In k cand \/ exists a w', nth_error (aggs s) k = Some a /\ leq G veq (eq (ctr a)) = true /\ In w' (w :: r) /\ In w' (mems a)).
    { intros c0 n0 s1 SS _. destruct (IH c0 n0 s1 (same_inv _ _ SS I) HR') as (c & s' & E & S' & HC). exists c, s'. split; auto. split; [eapply same_trans; eauto|].
      intros k Hk. destruct (HC k Hk) as [X|(a & x & X1 & X2 & X3 & X4)]; auto. right. exists a, x. destruct SS as (_ & _ & SS & _). rewrite SS in X1. split; auto. split; auto. split; auto. now right. }
    rewrite (rd_ok _ _ false) by (rewrite (i_mk s I); auto). cbn [bind]. rewrite (rd_ok _ _ 0%Z) by (rewrite (i_di s I); auto). cbn [bind].
    destruct (_ && _); [|apply WK; auto using same_refl]. rewrite (rd_ok _ _ None) by (rewrite (i_va s I); auto). cbn [bind].
    destruct (nth w (v2a s) None) as [k|] eqn:E; [|apply WK; auto using same_refl].
    pose proof (proj1 (i_cons s I w k) E) as (a & Ha & Hin). unfold rd at 1. rewrite Ha. cbn [bind].
    assert (HC : ctr a < n). { destruct (i_agg s I k a Ha) as (_ & X & _). apply (nth_v2a_lt s _ k I). apply (i_cons s I). eauto. }
    rewrite rd_eqc by auto. cbn [bind]. destruct (leq G veq (eq (ctr a))) eqn:Q; cbn [andb]; [|apply WK; auto using same_refl].
    destruct (negb (mem k notake) && negb (mem k cand)); [|apply WK; auto using same_refl].
    destruct (ask O s) as [ok s1] eqn:Ea. pose proof (same_ask s) as SA. rewrite Ea in SA. cbn [snd] in SA.
    destruct ok; [|apply WK; auto].
    destruct (WK (cand ++ [k]) notake s1 SA ltac:(auto)) as (c & s' & E' & S' & HC'). exists c, s'. split; auto. split; auto. intros i Hi. destruct (HC' i Hi) as [X|X]; auto.
    apply in_app_or in X. destruct X as [X|[<-|[]]]; auto. right. exists a, w. split; auto. split; auto. split; auto. now left.
  Qed.
  Lemma min_dist_ok s ms r : forall d, Inv s -> (forall w, In w r -> w < n) -> exists d', min_dist s ms r d = Ret d'.
  Proof.
    induction r as [|w r IH]; intros d I H; cbn [min_dist]. eauto. assert (w < n) by (apply H; now left). assert (forall x, In x r -> x < n) by (intros; apply H; now right).
    destruct (mem w ms); [|now apply IH]. rewrite (rd_ok _ _ 0%Z) by (rewrite (i_di s I); auto). cbn [bind]. now apply IH.
  Qed.
  Lemma join_ok s v : Inv s -> v < n -> exists s', join_v O G s v = Ret s' /\ Inv s' /\ ext0 s s' /\ (mine v = true -> blocked G v = false -> nth v (v2a s') None <> None) /\
    (forall P, K P s -> (forall j, P j v) -> (forall N, row v = [N] -> forall j, P j N) -> K P s').
  Proof.
    intros I Hv. unfold join_v. rewrite rd_eqc by auto. cbn [bind]. rewrite (rd_ok _ _ false) by (rewrite (i_mk s I); auto). cbn [bind]. rewrite mine_ok by auto. cbn [bind].
    destruct (nth v (marked s) false) eqn:M; cbn [orb].
    { exists s. split; auto. split; auto. split; [apply same_ext0, same_refl|]. split; [|auto]. intros _ HB. destruct (i_blk s I v Hv M); congruence. }
    destruct (mine v) eqn:MI; cbn [negb]. 2:{ exists s. split; auto. split; auto. split; [apply same_ext0, same_refl|]. split; [discriminate|auto]. }
    rewrite rd_row by auto. cbn [bind]. destruct (unmarked_can s v I Hv M) as (HC & HB). pose proof (unmarked_none s v I M) as HV.
    (* a new agglomerate around v *)
    assert (NEW : forall s1, same s s1 -> exists s', (' p <- init_agglomerate O G v (eq v) true s1 ;; Ret (snd p)) = Ret s' /\ Inv s' /\ ext0 s s' /\ (true = true -> blocked G v = false -> nth v (v2a s') None <> None) /\
      (forall P, K P s -> (forall j, P j v) -> (forall N, row v = [N] -> forall j, P j N) -> K P s')).
    { intros s1 SS. destruct (init_ok s1 v true (same_inv _ _ SS I) Hv) as (b & s' & E & I' & X & F & KF); auto. { destruct SS as (_ & SS & _). now rewrite SS. }
      rewrite E. cbn [bind snd]. exists s'. split; auto. split; auto. split; [eapply ext0_trans; [apply same_ext0; exact SS|exact X]|]. split; [auto|]. intros P HK HP _. apply KF; auto. now apply (same_ext _ _ SS). }
    assert (ADD : forall s1 k a d, same s s1 -> nth_error (aggs s) k = Some a -> (exists m, In m (mems a) /\ In v (row m)) -> leq G (eq v) (eq (ctr a)) = true ->
      exists s', add_member s1 k v d = Ret s' /\ Inv s' /\ ext0 s s' /\ (true = true -> blocked G v = false -> nth v (v2a s') None <> None) /\
      (forall P, K P s -> (forall j, P j v) -> (forall N, row v = [N] -> forall j, P j N) -> K P s')).
    { intros s1 k a d SS Ha Hm HL. pose proof (same_inv _ _ SS I) as I1. pose proof (same_ext0 _ _ SS) as X1. destruct SS as (SS1 & SS2 & SS3 & SS4).
      destruct (add_member_ok s1 k v d a I1) as (s' & a' & E & I' & (X & KX) & V' & _); auto. now rewrite SS3. now rewrite SS2.
      exists s'. split; auto. split; auto. split; [eapply ext0_trans; eauto|]. split. { intros _ _. rewrite V', nth_upd_eq by (rewrite (i_va s1 I1); auto). discriminate. }
      intros P HK _ _. apply KX. unfold K. rewrite SS3. exact HK. }
    destruct (row v) as [|N [|N2 r]] eqn:ER.
    - cbn [neib_aggs bind]. apply NEW, same_refl.
    - assert (HN : N < n) by (apply (row_lt v Hv); rewrite ER; now left). assert (HNv : In v (row N)) by (apply (g_sym G HG v N Hv); rewrite ER; now left).
      rewrite rd_eqc by auto. cbn [bind]. rewrite (rd_ok _ _ None) by (rewrite (i_va s I); auto). cbn [bind]. destruct (nth N (v2a s) None) as [k|] eqn:EN.
      + destruct (leq G (eq v) (eq N)) eqn:Q; cbn [bind].
        * destruct (ask O s) as [ok s1] eqn:Ea. pose proof (same_ask s) as SA. rewrite Ea in SA. cbn [snd] in SA. destruct ok; [|now apply NEW].
          rewrite (rd_ok _ _ 0%Z) by (rewrite (i_di s1 (same_inv _ _ SA I)); auto). cbn [bind]. pose proof (proj1 (i_cons s I N k) EN) as (a & Ha & Hin). apply ADD with a; auto. eauto.
          apply (g_trans G HG) with (eq N); auto. now apply (i_agg s I k a Ha).
        * apply NEW, same_refl.
      + rewrite mine_ok by auto. cbn [bind]. destruct (mine N) eqn:MN; cbn [andb]; [|apply NEW, same_refl]. destruct (leq G (eq v) (eq N)) eqn:Q; [|apply NEW, same_refl].
        assert (CN : can N). { right. split; auto. exists v. auto. }
        destruct (init_ok s N true I HN EN CN (or_introl eq_refl)) as (b & s1 & E1 & I1 & X1 & F1 & KF1). rewrite E1. cbn [bind snd]. rewrite (rd_ok _ _ None) by (rewrite (i_va s1 I1); auto). cbn [bind].
        rewrite (rd_ok _ _ false) by (rewrite (i_mk s1 I1); auto). cbn [bind]. destruct (nth v (marked s1) false) eqn:M1.
        * exists s1. split; auto. split; auto. split; auto. split. { intros _ _. destruct (i_blk s1 I1 v Hv M1); congruence. } intros P HK _ HP. apply KF1; auto.
        * destruct (nth N (v2a s1) None) as [k|] eqn:EN1; [|now elim (F1 eq_refl)]. pose proof (proj1 (i_cons s1 I1 N k) EN1) as (a & Ha & Hin).
          destruct (add_member_ok s1 k v 1 a I1) as (s' & a' & E & I' & (X & KX) & V' & _); auto. now apply unmarked_none. eauto.
          { apply (g_trans G HG) with (eq N); auto. now apply (i_agg s1 I1 k a Ha). }
          exists s'. split; auto. split; auto. split; [eapply ext0_trans; eauto|]. split. { intros _ _. rewrite V', nth_upd_eq by (rewrite (i_va s1 I1); auto). discriminate. }
          intros P HK _ HP. apply KX. apply KF1; auto.
    - set (r0 := N :: N2 :: r) in *. assert (HR : forall w, In w r0 -> w < n) by (rewrite <- ER; apply row_lt; auto).
      destruct (neib_aggs_ok (eq v) r0 [] [] s I HR) as (c & s1 & E1 & S1 & HC1). rewrite E1. cbn [bind]. destruct c as [|k0 c]; [now apply NEW|].
      set (cc := k0 :: c) in *. assert (HP : o_pick O (calls s1) (length cc) < length cc) by (apply HO; cbn; lia). rewrite (rd_ok cc _ 0) by auto. cbn [bind].
      set (k := nth (o_pick O (calls s1) (length cc)) cc 0). assert (Hk : In k cc) by now apply nth_In. destruct (HC1 k Hk) as [[]|(a & w & Ha & Ql & Hw & Hwa)].
      unfold rd. replace (aggs s1) with (aggs s) by (symmetry; apply S1). rewrite Ha. cbn [bind]. destruct (min_dist_ok s1 (mems a) r0 1000 (same_inv _ _ S1 I) HR) as (d & ->). cbn [bind].
      apply ADD with a; auto. exists w. split; auto. apply (g_sym G HG v w Hv). now rewrite ER.
  Qed.
  (** a hanging vertex makes its neighbour the centre of an agglomerate *)
  Lemma join_hang s v N : Inv s -> v < n -> row v = [N] -> nth v (marked s) false = false -> mine v = true -> mine N = true -> leq G (eq v) (eq N) = true ->
    exists s', join_v O G s v = Ret s' /\ nth N (v2a s') None <> None.
  Proof.
    intros I Hv ER M MV MN Q. destruct (nth N (v2a s) None) as [k|] eqn:EN.
    - destruct (join_ok s v I Hv) as (s' & E & I' & (X & _) & _). exists s'. split; auto. rewrite (X N k EN). discriminate.
    - unfold join_v. assert (HN : N < n) by (apply (row_lt v Hv); rewrite ER; now left). assert (HNv : In v (row N)) by (apply (g_sym G HG v N Hv); rewrite ER; now left).
      rewrite rd_eqc by auto. cbn [bind]. rewrite (rd_ok _ _ false) by (rewrite (i_mk s I); auto). cbn [bind]. rewrite mine_ok by auto. cbn [bind]. rewrite M, MV. cbn [orb negb].
      rewrite rd_row, ER by auto. cbn [bind]. rewrite rd_eqc by auto. cbn [bind]. rewrite (rd_ok _ _ None) by (rewrite (i_va s I); auto). cbn [bind]. rewrite EN.
      rewrite mine_ok by auto. cbn [bind]. rewrite MN, Q. cbn [andb].
      destruct (unmarked_can s v I Hv M) as (HC & HB).
      assert (CN : can N). { right. split; auto. exists v. auto. }
      destruct (init_ok s N true I HN EN CN (or_introl eq_refl)) as (b & s1 & E1 & I1 & X1 & F1 & _). rewrite E1. cbn [bind snd]. rewrite (rd_ok _ _ None) by (rewrite (i_va s1 I1); auto). cbn [bind].
      rewrite (rd_ok _ _ false) by (rewrite (i_mk s1 I1); auto). cbn [bind]. destruct (nth v (marked s1) false) eqn:M1.
      + exists s1. split; auto.
      + destruct (nth N (v2a s1) None) as [k|] eqn:EN1; [|now elim (F1 eq_refl)]. pose proof (proj1 (i_cons s1 I1 N k) EN1) as (a & Ha & Hin).
        destruct (add_member_ok s1 k v 1 a I1) as (s' & a' & E & I' & ((X & _) & _) & _); auto. now apply unmarked_none. eauto.
        { apply (g_trans G HG) with (eq N); auto. now apply (i_agg s1 I1 k a Ha). }
        exists s'. split; auto. rewrite (X N k EN1). discriminate.
  Qed.
  (** *** the loops *)
  Lemma init_inv : Inv (init_state G).
  Proof.
    unfold init_state. assert (NB : forall v, nth v (repeat (@None nat) n) None = None).
    { intros v. destruct (Nat.lt_ge_cases v n). now apply nth_repeat. now rewrite nth_overflow by now rewrite repeat_length. }
    assert (MK : forall v, v < n -> nth v (map (blocked G) (seq 0 n)) false = blocked G v).
    { intros v Hv. rewrite nth_indep with (d' := blocked G 0) by (now rewrite map_length, seq_length). rewrite map_nth, seq_nth; auto. }
    constructor; cbn [marked v2a dist aggs]; rewrite ?map_length, ?seq_length, ?repeat_length; auto.
    - intros v k. rewrite NB. split; [discriminate|]. intros (a & Ha & _). now destruct k.
    - intros k a Ha. now destruct k.
    - intros v k H. rewrite NB in H. discriminate.
    - intros v Hv H. rewrite MK in H by auto. auto.
    - intros v Hv H. now rewrite MK.
    - intros v k H. rewrite NB in H. discriminate.
  Qed.
  Lemma order_in v : In v (bucket_order G) <-> v < n.
  Proof.
    unfold bucket_order. rewrite in_flat_map. split.
    - intros (d & _ & H). apply filter_In in H as (H & _). apply in_rev in H. apply in_seq in H. lia.
    - intros H. exists (length (row v)). split.
      + apply in_seq. split; [lia|]. rewrite Nat.add_0_l. assert (X : forall l, In v l -> length (row v) <= fold_right (fun w m => Nat.max m (length (row w))) 0 l).
        { induction l as [|x l IH]; cbn; [tauto|]. intros [->|Hl]; [lia|]. specialize (IH Hl). lia. }
        apply Nat.lt_succ_r. apply X. apply in_seq. lia.
      + apply filter_In. rewrite Nat.eqb_refl. split; auto. apply -> in_rev. apply in_seq. lia.
  Qed.
  Lemma check_K s v : Inv s -> v < n -> forall s', check_v O G s v = Ret s' -> forall P, K P s -> K P s'.
  Proof.
    intros I Hv s'. unfold check_v. rewrite rd_eqc by auto. cbn [bind]. rewrite (rd_ok _ _ false) by (rewrite (i_mk s I); auto). cbn [bind].
    destruct (nth v (marked s) false) eqn:M. { intros [= <-]. auto. }
    rewrite rd_row by auto. cbn [bind]. destruct (neib_in_agg_ok s (eq v) (row v) I (row_lt v Hv)) as (b & ->). cbn [bind]. destruct b. { intros [= <-]. auto. }
    destruct (init_ok s v false I Hv (unmarked_none s v I M)) as (b & s1 & E & I' & X & _ & KF); auto. apply (unmarked_can s); auto. rewrite E. cbn. intros [= <-] P HK. apply KF; auto. discriminate.
  Qed.
  Lemma loop1 l : (forall v, In v l -> v < n) -> forall s, Inv s -> exists s', foldM (check_v O G) l s = Ret s' /\ Inv s' /\ ext0 s s' /\ forall P, K P s -> K P s'.
  Proof.
    induction l as [|v l IH]; intros H s I; cbn [foldM]. { exists s. split; auto. split; auto. split; [apply same_ext0, same_refl|auto]. }
    assert (Hv : v < n) by (apply H; now left). destruct (check_ok s v I Hv) as (s1 & E1 & I1 & X1). pose proof (check_K s v I Hv s1 E1) as K1. rewrite E1. cbn [bind].
    destruct (IH ltac:(intros; apply H; now right) s1 I1) as (s2 & E2 & I2 & X2 & K2). exists s2. split; auto. split; auto. split; [eapply ext0_trans; eauto|auto].
  Qed.
  Lemma loop2 l : (forall v, In v l -> v < n) -> forall s, Inv s -> exists s', foldM (join_v O G) l s = Ret s' /\ Inv s' /\ ext0 s s' /\
    (forall v, In v l -> mine v = true -> blocked G v = false -> nth v (v2a s') None <> None).
  Proof.
    induction l as [|v l IH]; intros H s I; cbn [foldM]. { exists s. split; auto. split; auto. split; [apply same_ext0, same_refl|intros v []]. }
    assert (Hv : v < n) by (apply H; now left). destruct (join_ok s v I Hv) as (s1 & E1 & I1 & X1 & R1 & _). rewrite E1. cbn [bind].
    destruct (IH ltac:(intros; apply H; now right) s1 I1) as (s2 & E2 & I2 & X2 & R2). exists s2. split; auto. split; auto. split; [eapply ext0_trans; eauto|].
    intros w [<-|Hw]; auto. intros MW BW. specialize (R1 MW BW). destruct (nth v (v2a s1) None) as [k|] eqn:E; [|contradiction]. destruct X2 as (X2 & _). rewrite (X2 v k E). discriminate.
  Qed.
  (** an agglomerate of several vertices that contains a hanging vertex contains its neighbour *)
  Lemma hang_path s h N k a : Inv s -> h < n -> row h = [N] -> nth_error (aggs s) k = Some a -> In h (mems a) -> 2 <= length (mems a) \/ ctr a <> h -> In N (mems a).
  Proof.
    intros I Hh ER Ha Hin Hsz. destruct (i_agg s I k a Ha) as (SS & HC & HP).
    assert (LT : forall x, In x (mems a) -> x < n). { intros x Hx. apply (nth_v2a_lt s x k I). apply (i_cons s I). eauto. }
    assert (B : forall x, path G (mems a) (ctr a) x -> x = h -> x <> ctr a -> In N (mems a)).
    { intros x Hx. inversion Hx as [|? y ? Hy Hz Hadj]; subst. congruence. intros -> _. assert (In y (mems a)) by (inversion Hy; auto).
      apply (g_sym G HG y h) in Hadj; auto. rewrite ER in Hadj. destruct Hadj as [<-|[]]. auto. }
    assert (F : forall x, path G (mems a) (ctr a) x -> ctr a = h -> x <> h -> In N (mems a)).
    { intros x Hx EC. induction Hx as [x Hx|x y z Hy IH Hz Hadj]. congruence. intros _. destruct (Nat.eq_dec y h) as [->|NE]; auto. rewrite ER in Hadj. destruct Hadj as [<-|[]]. auto. }
    destruct (Nat.eq_dec (ctr a) h) as [EC|NE]; [|apply (B h); auto; apply HP; auto]. destruct Hsz as [Hsz|Hsz]; [|contradiction].
    assert (exists x, In x (mems a) /\ x <> h) as (x & Hx & Nx).
    { destruct (mems a) as [|x [|y l]]; cbn in Hsz; try lia. apply StronglySorted_inv in SS as (_ & HF). rewrite Forall_forall in HF. specialize (HF y (or_introl eq_refl)).
      destruct (Nat.eq_dec x h); [exists y|exists x]; split; cbn; auto. lia. }
    apply (F x); auto. now apply HP.
  Qed.
  Lemma join_marked s v : Inv s -> v < n -> nth v (marked s) false = true -> join_v O G s v = Ret s.
  Proof.
    intros I Hv M. unfold join_v. rewrite rd_eqc by auto. cbn [bind]. rewrite (rd_ok _ _ false) by (rewrite (i_mk s I); auto). cbn [bind]. rewrite mine_ok by auto. cbn [bind]. rewrite M. reflexivity.
  Qed.
  Lemma loop2_hang h N : h < n -> row h = [N] -> blocked G h = false -> mine h = true -> blocked G N = true -> mine N = true -> leq G (eq h) (eq N) = true ->
    forall l, (forall v, In v l -> v < n) -> forall s, Inv s -> nth N (v2a s) None <> None \/ K (fun _ c => c <> h) s ->
    exists s', foldM (join_v O G) l s = Ret s' /\ Inv s' /\ ext0 s s' /\ (nth N (v2a s') None <> None \/ (K (fun _ c => c <> h) s' /\ ~ In h l)).
  Proof.
    intros Hh ER BH MH BN MN Q. induction l as [|v l IH]; intros H s I HK; cbn [foldM]. { exists s. split; auto. split; auto. split; [apply same_ext0, same_refl|]. destruct HK; auto. }
    assert (Hv : v < n) by (apply H; now left). assert (HL : forall v, In v l -> v < n) by (intros; apply H; now right).
    destruct (join_ok s v I Hv) as (s1 & E1 & I1 & X1 & R1 & K1). rewrite E1. cbn [bind].
    assert (HN : N < n) by (apply (row_lt h Hh); rewrite ER; now left).
    assert (HK1 : nth N (v2a s1) None <> None \/ (K (fun _ c => c <> h) s1 /\ v <> h)).
    { destruct (nth N (v2a s) None) as [k|] eqn:EN. { left. destruct X1 as (X1 & _). rewrite (X1 N k EN). discriminate. }
      destruct HK as [HK|HK]; [congruence|]. destruct (Nat.eq_dec v h) as [->|NE].
      - left. destruct (nth h (marked s) false) eqn:M.
        + exfalso. destruct (i_blk s I h Hh M) as [X|X]; [congruence|]. destruct (nth h (v2a s) None) as [k|] eqn:EH; [|contradiction].
          pose proof (proj1 (i_cons s I h k) EH) as (a & Ha & Hin). assert (HNa : In N (mems a)) by (apply (hang_path s h N k a); auto; apply HK with k; auto).
          assert (nth N (v2a s) None = Some k) by (apply (i_cons s I); eauto). congruence.
        + destruct (join_hang s h N I Hh ER M MH MN Q) as (s1' & E1' & X'). rewrite E1 in E1'. injection E1' as <-. exact X'.
      - right. split; auto. destruct (Nat.eq_dec v N) as [->|NN].
        + rewrite (join_marked s N I HN (i_blk2 s I N HN BN)) in E1. injection E1 as <-. exact HK.
        + apply K1; auto. intros N' ER' _ EQ. subst N'. assert (HA : In v (row h)) by (apply (g_sym G HG v h Hv); rewrite ER'; now left). rewrite ER in HA. destruct HA as [HA|[]]. congruence. }
    destruct (IH HL s1 I1) as (s2 & E2 & I2 & X2 & R2). { destruct HK1 as [X|(X & _)]; auto. }
    exists s2. split; auto. split; auto. split; [eapply ext0_trans; eauto|]. destruct R2 as [R2|(R2 & R3)]; auto. destruct HK1 as [X|(X & Y)].
    - left. destruct (nth N (v2a s1) None) as [k|] eqn:EN; [|contradiction]. destruct X2 as (X2 & _). rewrite (X2 N k EN). discriminate.
    - right. split; auto. intros [Z|Z]; auto.
  Qed.
  (** *** fixed agglomerates *)
  Record fixed_ok : Prop := {
    f_ne : forall f, In f (fixed G) -> f <> []; f_lt : forall f v, In f (fixed G) -> In v f -> v < n; f_nodup : NoDup (concat (fixed G));
    f_hang : forall w v, w < n -> row w = [v] -> blocked G w = false -> mine w = true -> mine v = true -> leq G (eq w) (eq v) = true -> is_fixed G v = false }.
  (** what the result looks like *)
  Definition consistent (va : list (option nat)) (ag : list agg) : Prop :=
    length va = n /\ (forall v k, nth v va None = Some k <-> exists a, nth_error ag k = Some a /\ In v (mems a)) /\
    forall a, In a ag -> StronglySorted lt (mems a) /\ In (ctr a) (mems a).
  Lemma fixed_loop (k : nat) f : forall (va : list (option nat)) ms, length va = n -> StronglySorted lt ms -> (forall v, In v f -> v < n) -> NoDup f -> (forall v, In v f -> ~ In v ms) ->
    exists va' ms', foldM (fun p m => va <- wr (fst p) m (Some k) ;; ms <- add_sort m (snd p) ;; Ret (va, ms)) f (va, ms) = Ret (va', ms') /\ length va' = n /\ StronglySorted lt ms' /\ Permutation ms' (f ++ ms) /\
      forall v, nth v va' None = if mem v f then Some k else nth v va None.
  Proof.
    induction f as [|x f IH]; intros va ms LV SS HL ND HD; cbn [foldM]. { exists va, ms. split; auto. }
    cbn [fst snd]. assert (x < n) by (apply HL; now left). rewrite wr_ok by lia. cbn [bind]. destruct (add_sort_ok x ms SS) as (m1 & E1 & S1 & P1). { apply HD. now left. } rewrite E1. cbn [bind].
    inversion ND as [|? ? NX NF]; subst.
    destruct (IH (upd va x (Some k)) m1) as (va' & ms' & E' & L' & S' & P' & V'); auto. now rewrite upd_length. intros; apply HL; now right.
    { intros v Hv X. apply (Permutation_in _ P1) in X. destruct X as [->|X]; auto. apply (HD v); auto. now right. }
    exists va', ms'. split; auto. split; auto. split; auto. split. { rewrite P', P1. rewrite <- Permutation_middle. reflexivity. }
    intros v. rewrite V'. unfold mem at 2. cbn [existsb]. fold (mem v f). destruct (mem v f) eqn:B. now rewrite Bool.orb_true_r. rewrite Bool.orb_false_r.
    destruct (Nat.eqb_spec v x) as [->|NE]. rewrite nth_upd_eq by lia. auto. now rewrite nth_upd_neq by auto.
  Qed.
  Lemma add_fixed_ok s f : consistent (v2a s) (aggs s) -> f <> [] -> (forall v, In v f -> v < n) -> NoDup f -> (forall v, In v f -> nth v (v2a s) None = None) ->
    exists s' a, add_fixed s f = Ret s' /\ consistent (v2a s') (aggs s') /\ aggs s' = aggs s ++ [a] /\ ctr a = hd 0 f /\ Permutation (mems a) f /\
      forall v, nth v (v2a s') None = if mem v f then Some (length (aggs s)) else nth v (v2a s) None.
  Proof.
    intros (CL & CC & CA) HF HL ND HN. unfold add_fixed. destruct f as [|c f]; [contradiction|]. cbn [rd nth_error bind skipn]. unfold rd. cbn [nth_error bind].
    rewrite wr_ok by (rewrite CL; apply HL; now left). cbn [bind]. inversion ND as [|? ? NX NF]; subst.
    destruct (fixed_loop (length (aggs s)) f (upd (v2a s) c (Some (length (aggs s)))) [c]) as (va' & ms' & E' & L' & S' & P' & V'); auto. now rewrite upd_length. repeat constructor. intros; apply HL; now right.
    { intros v Hv [<-|[]]. contradiction. }
    rewrite E'. cbn [bind fst snd]. set (a := mkAgg c ms'). eexists _, a. split; [reflexivity|]. cbn [v2a aggs].
    assert (PM : Permutation ms' (c :: f)) by (rewrite P'; symmetry; apply Permutation_cons_append).
    assert (VV : forall v, nth v va' None = if mem v (c :: f) then Some (length (aggs s)) else nth v (v2a s) None).
    { intros v. rewrite V'. unfold mem at 2. cbn [existsb]. fold (mem v f). destruct (mem v f) eqn:B. now rewrite Bool.orb_true_r. rewrite Bool.orb_false_r.
      destruct (Nat.eqb_spec v c) as [->|NE]. rewrite nth_upd_eq by (rewrite CL; apply HL; now left). auto. now rewrite nth_upd_neq by auto. }
    split; [|split; [reflexivity|split; [reflexivity|split; [exact PM|exact VV]]]]. split; auto. split.
    - intros v k. rewrite VV. destruct (mem v (c :: f)) eqn:B.
      + apply mem_in in B. split.
        * intros [= <-]. exists a. rewrite nth_error_app2, Nat.sub_diag by auto. split; auto. apply (Permutation_in _ (Permutation_sym PM)). exact B.
        * intros (b & Hb & Hin). destruct (Nat.lt_ge_cases k (length (aggs s))) as [Hk|Hk].
          { rewrite nth_error_app1 in Hb by auto. assert (nth v (v2a s) None = Some k) by (apply CC; eauto). rewrite HN in H by auto. discriminate. }
          { rewrite nth_error_app2 in Hb by auto. destruct (k - length (aggs s)) as [|[|m]] eqn:EK; try discriminate. f_equal. lia. }
      + apply mem_out in B. rewrite CC. split.
        * intros (b & Hb & Hin). exists b. rewrite nth_error_app1; auto. apply nth_error_Some. congruence.
        * intros (b & Hb & Hin). destruct (Nat.lt_ge_cases k (length (aggs s))) as [Hk|Hk]. { rewrite nth_error_app1 in Hb by auto. eauto. }
          rewrite nth_error_app2 in Hb by auto. destruct (k - length (aggs s)) as [|[|m]] eqn:EK; try discriminate. injection Hb as <-. exfalso. apply B. apply (Permutation_in _ PM). exact Hin.
    - intros b Hb. apply in_app_or in Hb. destruct Hb as [Hb|[<-|[]]]; auto. cbn. split; auto. apply (Permutation_in _ (Permutation_sym PM)). now left.
  Qed.
  Lemma loop3 fs : forall s, consistent (v2a s) (aggs s) -> (forall f, In f fs -> f <> [] /\ forall v, In v f -> v < n /\ nth v (v2a s) None = None) -> NoDup (concat fs) ->
    exists s' ag, foldM add_fixed fs s = Ret s' /\ consistent (v2a s') (aggs s') /\ aggs s' = aggs s ++ ag /\ length ag = length fs /\
      (forall i a, nth_error ag i = Some a -> ctr a = hd 0 (nth i fs []) /\ Permutation (mems a) (nth i fs [])) /\
      forall v, ~ In v (concat fs) -> nth v (v2a s') None = nth v (v2a s) None.
  Proof.
    induction fs as [|f fs IH]; intros s HC HF ND; cbn [foldM]. { exists s, []. split; auto. split; auto. split; [now rewrite app_nil_r|]. split; auto. split; auto. intros [|i] a; discriminate. }
    destruct (HF f (or_introl eq_refl)) as (NE & HV). cbn [concat] in ND. pose proof (NoDup_app_remove_r _ _ ND) as NDf. pose proof (NoDup_app_remove_l _ _ ND) as NDr.
    destruct (add_fixed_ok s f HC NE) as (s1 & a & E1 & C1 & A1 & Ac & Am & V1); auto. intros; now apply HV. intros; now apply HV. rewrite E1. cbn [bind].
    assert (DJ : forall v, In v f -> In v (concat fs) -> False). { clear -ND. induction f as [|x f IHf]; intros v Hv Hc; [destruct Hv|]. cbn in ND. inversion ND; subst. destruct Hv as [->|Hv]; [|eauto]. apply H1. apply in_or_app. now right. }
    destruct (IH s1 C1) as (s' & ag & E' & C' & A' & L' & P' & V'); auto.
    { intros g Hg. destruct (HF g (or_intror Hg)) as (G1 & G2). split; auto. intros v Hv. destruct (G2 v Hv). split; auto. rewrite V1. destruct (mem v f) eqn:B; auto. apply mem_in in B. exfalso. apply (DJ v B). apply in_concat. eauto. }
    exists s', (a :: ag). split; auto. split; auto. split; [rewrite A', A1, <- app_assoc; reflexivity|]. split; [cbn; lia|]. split.
    { intros [|i] b Hb; cbn in Hb |- *. injection Hb as <-. auto. now apply P'. }
    intros v Hv. cbn [concat] in Hv. rewrite V' by (intros X; apply Hv, in_or_app; auto). rewrite V1. destruct (mem v f) eqn:B; auto. apply mem_in in B. exfalso. apply Hv, in_or_app. auto.
  Qed.
  Lemma in_fixed v : is_fixed G v = true <-> In v (concat (fixed G)).
  Proof. unfold is_fixed. rewrite existsb_exists, in_concat. split; intros (f & H1 & H2); exists f; split; auto; now apply mem_in. Qed.

  Lemma form_ok : fixed_ok -> exists ag fx va, FormAgglomerates O G = Ret (ag ++ fx, va) /\ consistent va (ag ++ fx) /\ length fx = length (fixed G) /\
    (forall i a, nth_error fx i = Some a -> ctr a = hd 0 (nth i (fixed G) []) /\ Permutation (mems a) (nth i (fixed G) [])) /\
    (forall a, In a ag -> forall v, In v (mems a) -> path G (mems a) (ctr a) v /\ leq G (eq v) (eq (ctr a)) = true /\ can v) /\
    (forall v, v < n -> mine v = true -> dirichlet G v = false -> nth v va None <> None) /\
    (forall h N, h < n -> row h = [N] -> blocked G h = false -> mine h = true -> mine N = true -> leq G (eq h) (eq N) = true -> nth N va None <> None).
  Proof.
    intros FO. unfold FormAgglomerates. destruct (loop1 (bucket_order G) ltac:(intros v; apply order_in) (init_state G) init_inv) as (s1 & E1 & I1 & X1 & K1). rewrite E1. cbn [bind].
    destruct (loop2 (seq 0 n) ltac:(intros v Hv; apply in_seq in Hv; lia) s1 I1) as (s2 & E2 & I2 & X2 & R2). rewrite E2. cbn [bind].
    assert (C2 : consistent (v2a s2) (aggs s2)). { split; [apply I2|]. split; [apply I2|]. intros a Ha. apply In_nth_error in Ha as (k & Ha). destruct (i_agg s2 I2 k a Ha) as (Y1 & Y2 & _). auto. }
    assert (FR : forall v, is_fixed G v = true -> nth v (v2a s2) None = None).
    { intros v Hv. destruct (nth v (v2a s2) None) as [k|] eqn:E; auto. exfalso. destruct (i_can s2 I2 v k E) as [B|(MV & w & W1 & W2 & W3 & W4 & W5)].
      unfold blocked in B. rewrite Hv in B. discriminate. rewrite (f_hang FO w v) in Hv; auto. discriminate. }
    destruct (loop3 (fixed G) s2 C2) as (s3 & fx & E3 & C3 & A3 & L3 & P3 & V3).
    { intros f Hf. split. now apply (f_ne FO). intros v Hv. split. now apply (f_lt FO f). apply FR. apply in_fixed. apply in_concat. eauto. } apply FO.
    rewrite E3. cbn [bind]. exists (aggs s2), fx, (v2a s3). rewrite A3 in *. split; auto. split; auto. split; auto. split; auto.
    assert (KEEP : forall v k, nth v (v2a s2) None = Some k -> nth v (v2a s3) None <> None).
    { intros v k Hk. rewrite V3. rewrite Hk. discriminate. intros X. apply in_fixed in X. apply FR in X. congruence. }
    split; [|split].
    - intros a Ha v Hv. apply In_nth_error in Ha as (k & Ha). destruct (i_agg s2 I2 k a Ha) as (_ & _ & Y). destruct (Y v Hv). split; auto. split; auto. apply (i_can s2 I2 v k). apply (i_cons s2 I2). eauto.
    - intros v Hv MV DV. destruct (is_fixed G v) eqn:FX.
      + apply in_fixed in FX. apply in_concat in FX as (f & Hf & Hin). apply In_nth with (d := []) in Hf as (i & Hi & Ei). rewrite <- L3 in Hi. destruct (nth_error fx i) as [a|] eqn:Ea; [|apply nth_error_None in Ea; lia].
        destruct (P3 i a Ea) as (_ & Pm). destruct C3 as (_ & CC & _). assert (nth v (v2a s3) None = Some (length (aggs s2) + i)); [|congruence]. apply CC. exists a. split. rewrite nth_error_app2 by lia. now rewrite Nat.add_comm, Nat.add_sub.
        apply (Permutation_in _ (Permutation_sym Pm)). now rewrite Ei.
      + assert (BV : blocked G v = false). { unfold blocked. rewrite FX, DV. destruct (foreign G v) eqn:FF; auto. apply foreign_mine in FF. congruence. }
        specialize (R2 v ltac:(apply in_seq; lia) MV BV). destruct (nth v (v2a s2) None) as [k|] eqn:E; [|contradiction]. now apply KEEP with k.
    - intros h N Hh ER BH MH MN Q. assert (HN : N < n) by (apply (row_lt h Hh); rewrite ER; now left). destruct (blocked G N) eqn:BN.
      + destruct (loop2_hang h N Hh ER BH MH BN MN Q (seq 0 n) ltac:(intros v Hv; apply in_seq in Hv; lia) s1 I1) as (s2' & E2' & _ & _ & R').
        { right. apply K1. intros j a Ha. now destruct j. }
        rewrite E2 in E2'. injection E2' as <-. destruct R' as [R'|(_ & R')]; [|elim R'; apply in_seq; lia]. destruct (nth N (v2a s2) None) as [k|] eqn:E; [|contradiction]. now apply KEEP with k.
      + specialize (R2 N ltac:(apply in_seq; lia) MN BN). destruct (nth N (v2a s2) None) as [k|] eqn:E; [|contradiction]. now apply KEEP with k.
  Qed.
End MIS.
