(** Proofs about the edge map of an agglomeration step: the numbers of one rank, given the additional coarse edges. *)
From Verif Require Import Base ArraysModel EQCModel UtilProofs EQCProofs EQCProofs2 HybMatProofs MISProofs AggMapModel AggMapProofs EdgeMapModel EdgeMapProofs EdgeMapProofs2.
Local Open Scope nat_scope.

Lemma incr_ok (f : nat -> nat) n k : k < n -> incr (map f (seq 0 n)) k = Ret (map (fun c => if c =? k then S (f c) else f c) (seq 0 n)).
Proof. intros H. unfold incr. rewrite rd_map_seq by auto. cbn [bind]. rewrite wr_map_seq by auto. f_equal. apply map_seq_ext. intros c _. destruct (Nat.eqb_spec c k) as [->|]; auto. Qed.
Lemma decr_ok (f : nat -> nat) n k c : k < n -> f k = S c -> decr (map f (seq 0 n)) k = Ret (map (fun i => if i =? k then c else f i) (seq 0 n)).
Proof. intros H E. unfold decr. rewrite rd_map_seq by auto. cbn [bind]. rewrite E. now rewrite wr_map_seq. Qed.
Lemma add_lists_map {T} (f g : T -> nat) l : add_lists (map f l) (map g l) = map (fun x => f x + g x) l.
Proof. induction l as [|x l IH]; cbn [map add_lists]; auto. now rewrite IH. Qed.
Lemma length_snoc_if {T} (f : T -> bool) l x : length (filter f (l ++ [x])) = if f x then S (length (filter f l)) else length (filter f l).
Proof. rewrite filter_app, app_length. cbn [filter]. destruct (f x); cbn; lia. Qed.
Lemma filter_filter {T} (f g : T -> bool) l : filter f (filter g l) = filter (fun x => f x && g x) l.
Proof. induction l as [|x l IH]; auto. cbn [filter]. destruct (g x); cbn [filter]; rewrite ?andb_true_r, ?andb_false_r; rewrite IH; auto. Qed.
Lemma filter_true {T} (l : list T) : filter (fun _ => true) l = l. Proof. induction l; cbn; congruence. Qed.
Lemma filter_none {T} (f : T -> bool) l : (forall x, In x l -> f x = false) -> filter f l = [].
Proof. induction l as [|x l IH]; intros H; auto. cbn [filter]. rewrite (H x) by now left. apply IH. intros; apply H; now right. Qed.
Lemma filter_all {T} (f : T -> bool) l : (forall x, In x l -> f x = true) -> filter f l = l.
Proof. induction l as [|x l IH]; intros H; auto. cbn [filter]. rewrite (H x) by now left. f_equal. apply IH. intros; apply H; now right. Qed.
(** taking one key out of a list with different keys *)
Lemma count_out {T} (kd : T -> key) (sel : T -> bool) (L : list T) pre k i : NoDup (map kd L) -> In i L -> kd i = k -> sel i = true -> ~ In k pre ->
  length (filter (fun x => sel x && negb (kmem (kd x) pre)) L) = S (length (filter (fun x => sel x && negb (kmem (kd x) (pre ++ [k]))) L)).
Proof.
  intros ND HI HK HS HP. revert ND HI. induction L as [|y L IH]; intros ND HI; [destruct HI|]. cbn [map] in ND. inversion ND as [|? ? NI ND']; subst. cbn [filter].
  destruct (key_eqb (kd y) (kd i)) eqn:EQ.
  - apply key_iff in EQ. assert (y = i). { destruct HI as [|HI]; auto. exfalso. apply NI. rewrite EQ. now apply in_map. } subst y. rewrite HS. rewrite kmem_app. cbn [kmem existsb]. unfold kmem at 3. cbn [existsb]. rewrite (proj2 (key_iff _ _) eq_refl). apply kmem_out in HP. rewrite HP. cbn [negb andb orb length]. f_equal. f_equal. apply filter_ext_in. intros x Hx. f_equal. f_equal. rewrite kmem_app. unfold kmem at 3. cbn [existsb]. destruct (key_eqb (kd x) (kd i)) eqn:E; [|now rewrite !orb_false_r]. apply key_iff in E. exfalso. apply NI. rewrite <- E. now apply in_map.
  - destruct HI as [->|HI]. { rewrite (proj2 (key_iff _ _) eq_refl) in EQ. discriminate. } specialize (IH ND' HI). replace (kmem (kd y) (pre ++ [kd i])) with (kmem (kd y) pre). 2: { rewrite kmem_app. unfold kmem at 3. cbn [existsb]. rewrite EQ. now rewrite !orb_false_r. }
    destruct (sel y && negb (kmem (kd y) pre)); cbn [length]; rewrite IH; auto.
Qed.
Lemma count_same {T} (kd : T -> key) (sel : T -> bool) (L : list T) pre k : (forall x, In x L -> sel x = true -> kd x <> k) ->
  length (filter (fun x => sel x && negb (kmem (kd x) pre)) L) = length (filter (fun x => sel x && negb (kmem (kd x) (pre ++ [k]))) L).
Proof.
  intros H. f_equal. apply filter_ext_in. intros x Hx. destruct (sel x) eqn:E; auto. cbn [andb]. f_equal. rewrite kmem_app. unfold kmem at 3. cbn [existsb]. destruct (key_eqb (kd x) k) eqn:EQ; [|now rewrite !orb_false_r]. apply key_iff in EQ. now destruct (H x Hx E).
Qed.
Lemma flat_nth {T} (s : nat -> list T) n c j : c < n -> j < length (s c) -> nth_error (flat_map s (seq 0 n)) (off (map (fun c => length (s c)) (seq 0 n)) c + j) = nth_error (s c) j.
Proof.
  enough (G : forall n z c, c < n -> j < length (s (z + c)) -> nth_error (flat_map s (seq z n)) (off (map (fun c => length (s c)) (seq z n)) c + j) = nth_error (s (z + c)) j) by (intros; now apply (G n 0 c)).
  clear. induction n as [|n IH]; intros z c Hc Hj; [lia|]. cbn [seq flat_map map]. destruct c as [|c].
  - rewrite off_0. rewrite Nat.add_0_r in *. now rewrite nth_error_app1.
  - rewrite off_cons. rewrite nth_error_app2 by lia. replace (length (s z) + off (map (fun c => length (s c)) (seq (S z) n)) c + j - length (s z)) with (off (map (fun c => length (s c)) (seq (S z) n)) c + j) by lia. rewrite IH by (try lia; replace (S z + c) with (z + S c) by lia; auto). f_equal. f_equal. lia.
Qed.
Lemma flat_length {T} (s : nat -> list T) n : length (flat_map s (seq 0 n)) = sum (map (fun c => length (s c)) (seq 0 n)).
Proof. induction (seq 0 n) as [|c l IH]; auto. cbn [flat_map map]. rewrite app_length, sum_cons, IH. auto. Qed.
Lemma nodup_flat_keys {T} (s : nat -> list T) (cl : T -> nat) n : (forall c, c < n -> NoDup (s c)) -> (forall c x, c < n -> In x (s c) -> cl x = c) -> NoDup (flat_map s (seq 0 n)).
Proof.
  induction n as [|n IH]; intros H1 H2. constructor. rewrite seq_S, flat_map_app. cbn [flat_map Nat.add]. rewrite app_nil_r. apply nodup_app. apply IH; auto. apply H1; lia. intros x Hx Hy. apply in_flat_map in Hx as (c & Hc & Hx). apply in_seq in Hc. apply H2 in Hx; [|lia]. apply H2 in Hy; lia.
Qed.

Lemma kmem_snoc x D k : kmem x (D ++ [k]) = kmem x D || key_eqb x k.
Proof. rewrite kmem_app. unfold kmem at 2. cbn [existsb]. now rewrite orb_false_r. Qed.
Lemma none_map (l : list key) : map (fun k => if kmem k [] then Some k else None) l = repeat None (length l).
Proof. induction l as [|x l IH]; auto. cbn [map length repeat]. now rewrite IH. Qed.
Lemma eqb_notin a O : existsb (Nat.eqb a) O = false <-> ~ In a O.
Proof. rewrite <- eqb_in. destruct (existsb (Nat.eqb a) O); intuition congruence. Qed.

Section Rank.
  Variable tabs : list (list (list nat)).
  Variables (me : nat) (R : emesh).
  Notation tab := (nth me tabs []).
  Notation nq := (length tab).
  Hypothesis HE : edges_ok nq R.
  Notation edges := (all_edges R).
  Notation ne := (length edges).
  Notation nc := (sum (ecv R)).
  Notation qv := (cls (ecv R)).
  Variable qk : key -> nat.
  Hypothesis HQ : classes_ok tabs me R qk.
  Variable gidq : nat -> nat.
  Hypothesis HG : forall q, q < nq -> GetEQCID tabs me q = Ret (gidq q).
  Hypothesis HO : forall q, q < nq -> GetEQCOfID tabs me (gidq q) = Ret (Some q).
  Notation VIS := (vis R nq).
  Notation FIv := (FI R VIS).
  Notation kd := (keyd R).
  Notation cross := (crossk R).
  Definition tupk (k : key) : tup := sort_tup ((gidq (qv (fst k)), gidq (qv (snd k))), (fst k - off (ecv R) (qv (fst k)), snd k - off (ecv R) (qv (snd k)))).
  Lemma qv_lt a : a < nc -> qv a < nq. Proof. intros. rewrite <- (e_cv _ _ HE). now apply cls_ok. Qed.
  Lemma gidq_inj q q' : q < nq -> q' < nq -> gidq q = gidq q' -> q = q'.
  Proof. intros H H' E. pose proof (HO q H) as A. pose proof (HO q' H') as B. rewrite E in A. congruence. Qed.

  (** *** the first two rounds *)
  Definition selE (c id : nat) : bool := (qk (kd id) =? c) && negb (cross (kd id)).
  Definition selX (c id : nat) : bool := (qk (kd id) =? c) && cross (kd id).
  Definition selA (c id : nat) : bool := (qk (kd id) =? c) && negb (feq R id =? c).
  Definition cnt (sel : nat -> nat -> bool) (dn : list nat) : list nat := map (fun c => length (filter (sel c) dn)) (seq 0 nq).
  Definition addid (c : nat) : list nat := filter (selA c) FIv.
  Lemma cnt_snoc sel dn id : cnt sel (dn ++ [id]) = map (fun c => if sel c id then S (length (filter (sel c) dn)) else length (filter (sel c) dn)) (seq 0 nq).
  Proof. unfold cnt. apply map_ext. intros c. apply length_snoc_if. Qed.
  Lemma cnt_rd sel dn c : c < nq -> rd (cnt sel dn) c = Ret (length (filter (sel c) dn)).
  Proof. intros H. unfold cnt. now rewrite rd_map_seq. Qed.
  Lemma calls_true l : calls R (fun _ => true) l = FI R l. Proof. unfold calls. apply filter_true. Qed.
  Lemma qk_lt id : key_of R id = Some (kd id) -> qk (kd id) < nq. Proof. intros H. now apply (q_le _ _ _ _ HQ id). Qed.
  Lemma cnt_hit sel dn id : qk (kd id) < nq -> (forall c, sel c id = (c =? qk (kd id))) -> incr (cnt sel dn) (qk (kd id)) = Ret (cnt sel (dn ++ [id])).
  Proof. intros H E. rewrite cnt_snoc. unfold cnt. rewrite incr_ok by auto. f_equal. apply map_ext. intros c. rewrite E. auto. Qed.
  Lemma cnt_miss sel dn id : (forall c, sel c id = false) -> cnt sel dn = cnt sel (dn ++ [id]).
  Proof. intros E. rewrite cnt_snoc. unfold cnt. apply map_ext. intros c. now rewrite E. Qed.
  Lemma selA_miss id : feq R id = qk (kd id) -> forall c, selA c id = false.
  Proof. intros E c. unfold selA. rewrite E. destruct (qk (kd id) =? c); auto. Qed.
  Lemma selA_hit id : feq R id <> qk (kd id) -> forall c, selA c id = (c =? qk (kd id)).
  Proof. intros E c. unfold selA. rewrite (Nat.eqb_sym c). destruct (Nat.eqb_spec (qk (kd id)) c) as [<-|]; auto. destruct (Nat.eqb_spec (feq R id) (qk (kd id))); auto; contradiction. Qed.
  Lemma selE_cross id b : cross (kd id) = b -> forall c, selE c id = if b then false else c =? qk (kd id).
  Proof. intros E c. unfold selE. rewrite E. destruct b; cbn [negb]. apply andb_false_r. rewrite andb_true_r. apply Nat.eqb_sym. Qed.
  Lemma selX_cross id b : cross (kd id) = b -> forall c, selX c id = if b then c =? qk (kd id) else false.
  Proof. intros E c. unfold selX. rewrite E. destruct b. rewrite andb_true_r. apply Nat.eqb_sym. apply andb_false_r. Qed.
  Lemma round1 : it_es_u tabs me R (fun _ _ => Ret true) false (lam1) (repeat 0 nq, repeat 0 nq, repeat 0 nq) = Ret (cnt selE FIv, cnt selX FIv, cnt selA FIv).
  Proof.
    destruct (it_es_u_ok tabs me R HE qk HQ (fun _ _ => Ret true) false lam1 (fun _ => true) (fun dn s => s = (cnt selE dn, cnt selX dn, cnt selA dn))) with (s0 := (repeat 0 nq, repeat 0 nq, repeat 0 nq)) as (s' & E & ES).
    - auto.
    - eauto.
    - discriminate.
    - intros dn id rest s -> _ EK _. pose proof (qk_lt id EK) as LQ. exists (cnt selE (dn ++ [id]), cnt selX (dn ++ [id]), cnt selA (dn ++ [id])). split; auto. unfold lam1, call_of. cbv zeta. cbn [k_ceq k_feq k_cross].
      assert (CA : (if qk (kd id) =? feq R id then Ret (cnt selA dn) else incr (cnt selA dn) (qk (kd id))) = Ret (cnt selA (dn ++ [id]))).
      { destruct (Nat.eqb_spec (qk (kd id)) (feq R id)) as [E|N]. f_equal. apply cnt_miss. now apply selA_miss. apply cnt_hit; auto. apply selA_hit. auto. }
      rewrite CA. cbn [bind]. destruct (cross (kd id)) eqn:EC.
      + rewrite (cnt_hit selX) by (auto; intros c; now rewrite (selX_cross id true)). cbn [bind]. rewrite (cnt_miss selE dn id); auto. intros c. now rewrite (selE_cross id true).
      + rewrite (cnt_hit selE) by (auto; intros c; now rewrite (selE_cross id false)). cbn [bind]. rewrite (cnt_miss selX dn id); auto. intros c. now rewrite (selX_cross id false).
    - unfold cnt. cbn [filter length]. now rewrite !repeat_seq.
    - rewrite E, ES. now rewrite calls_true.
  Qed.
  Definition tid (id : nat) : tup := tupk (kd id).
  Lemma round2 : it_es_u tabs me R (fun _ _ => Ret true) false (lam2 tabs me R (cnt selA FIv)) (repeat [] nq) = Ret (map (fun c => map tid (addid c)) (seq 0 nq)).
  Proof.
    destruct (it_es_u_ok tabs me R HE qk HQ (fun _ _ => Ret true) false (lam2 tabs me R (cnt selA FIv)) (fun _ => true) (fun dn s => s = map (fun c => map tid (filter (selA c) dn)) (seq 0 nq))) with (s0 := @repeat (list tup) [] nq) as (s' & E & ES).
    - auto.
    - eauto.
    - discriminate.
    - intros dn id rest s -> CV EK _. pose proof (qk_lt id EK) as LQ. rewrite calls_true in CV. exists (map (fun c => map tid (filter (selA c) (dn ++ [id]))) (seq 0 nq)). split; auto. unfold lam2, call_of. cbv zeta. cbn [k_ceq k_feq k_q0 k_q1 k_v0 k_v1].
      destruct (Nat.eqb_spec (qk (kd id)) (feq R id)) as [E|N].
      + f_equal. apply map_ext. intros c. rewrite filter_app. cbn [filter]. rewrite selA_miss by auto. now rewrite app_nil_r.
      + destruct (key_facts R nq HE id _ EK) as (_ & K1 & K2). rewrite !HG by (apply qv_lt; lia). cbn [bind]. rewrite !disps_rd by (rewrite (e_cv _ _ HE); apply Nat.lt_le_incl, qv_lt; lia). cbn [bind]. rewrite rd_map_seq by auto. unfold cnt. rewrite rd_map_seq by auto. cbn [bind].
        rewrite map_length. destruct (Nat.ltb_spec (length (filter (selA (qk (kd id))) dn)) (length (filter (selA (qk (kd id))) FIv))) as [L|L].
        * rewrite wr_map_seq by auto. f_equal. apply map_ext. intros c. rewrite filter_app. cbn [filter]. rewrite selA_hit by auto. destruct (Nat.eqb_spec c (qk (kd id))) as [->|]. now rewrite map_app. now rewrite app_nil_r.
        * exfalso. rewrite CV in L. rewrite filter_app, app_length in L. cbn [filter] in L. rewrite selA_hit in L by auto. rewrite Nat.eqb_refl in L. cbn [length] in L. lia.
    - cbn [filter map]. apply repeat_seq.
    - rewrite E, ES. now rewrite calls_true.
  Qed.
  Lemma rounds12_ok : rounds12 tabs me R = Ret (cnt selE FIv, cnt selX FIv, map (fun c => sort_by less_tup (map tid (addid c))) (seq 0 nq)).
  Proof.
    unfold rounds12. rewrite round1. cbn [bind]. destruct (Nat.ltb_spec 1 nq) as [L|L].
    - rewrite round2. cbn [bind]. now rewrite map_map.
    - assert (NA : forall c, addid c = []).
      { intros c. apply filter_none. intros id Hid. destruct (FI_facts R VIS) as (_ & F & _). destruct (F id Hid) as (_ & EK). destruct (q_le _ _ _ _ HQ id _ EK) as (A & B). apply selA_miss. lia. }
      replace (forallb (Nat.eqb 0) (cnt selA FIv)) with true. cbn [bind]. f_equal. f_equal. rewrite repeat_seq, map_map. apply map_ext. intros c. now rewrite NA.
      symmetry. apply forallb_forall. intros x Hx. apply in_map_iff in Hx as (c & <- & _). fold (addid c). now rewrite NA.
  Qed.

  (** *** the additional edges *)
  Variables ake akx : nat -> list key.
  Notation ak c := (ake c ++ akx c).
  Record adds_ok : Prop := {
    ad_e : forall c k, In k (ake c) -> cross k = false;
    ad_x : forall c k, In k (akx c) -> cross k = true;
    ad_k : forall c k, c < nq -> In k (ak c) -> fst k < snd k /\ snd k < nc /\ qk k = c;
    ad_nd : forall c, c < nq -> NoDup (ak c);
    ad_0 : ak 0 = [];
    ad_own : forall id k, key_of R id = Some k -> feq R id <> qk k -> In k (ak (qk k)) }.
  Hypothesis HA : adds_ok.
  Notation add := (map (fun c => map tupk (ak c)) (seq 0 nq)).
  Lemma tupk_verts k : fst k < snd k -> snd k < nc -> exists v0 v1, tup_verts tabs me R (tupk k) = Ret (v0, v1) /\ ((v0, v1) = k \/ (v1, v0) = k) /\ is_cross (tupk k) = cross k.
  Proof.
    destruct k as [a b]. cbn [fst snd]. intros L1 L2. pose proof (qv_lt a ltac:(lia)) as QA. pose proof (qv_lt b L2) as QB. unfold tupk. cbn [fst snd].
    destruct (cls_ok (ecv R) a ltac:(lia)) as (_ & BA). destruct (cls_ok (ecv R) b L2) as (_ & BB).
    assert (DA : rd (disps_of (ecv R)) (qv a) = Ret (off (ecv R) (qv a))) by (apply disps_rd; rewrite (e_cv _ _ HE); lia). assert (DB : rd (disps_of (ecv R)) (qv b) = Ret (off (ecv R) (qv b))) by (apply disps_rd; rewrite (e_cv _ _ HE); lia).
    assert (SYM : gidq (qv a) =? gidq (qv b) = (qv a =? qv b)). { destruct (Nat.eqb_spec (qv a) (qv b)) as [->|N]. apply Nat.eqb_refl. apply Nat.eqb_neq. intros E. apply N. now apply gidq_inj. }
    assert (V : forall x y, x < nq -> y < nq -> forall i j, tup_verts tabs me R ((gidq x, gidq y), (i, j)) = (d0 <- rd (disps_of (ecv R)) x ;; d1 <- rd (disps_of (ecv R)) y ;; Ret (i + d0, j + d1))).
    { intros x y Hx Hy i j. unfold tup_verts. rewrite (HO x Hx). cbn [bind]. destruct (rd (disps_of (ecv R)) x); cbn [bind]; auto. destruct (Nat.eqb_spec (gidq y) (gidq x)) as [E|N]; cbn [negb bind]. apply gidq_inj in E; auto. subst y. reflexivity. rewrite (HO y Hy). reflexivity. }
    assert (CR : forall i j, is_cross ((gidq (qv a), gidq (qv b)), (i, j)) = cross (a, b)). { intros i j. unfold is_cross, crossk. cbn [fst snd]. f_equal. now rewrite Nat.eqb_sym. }
    assert (CR' : forall i j, is_cross ((gidq (qv b), gidq (qv a)), (i, j)) = cross (a, b)). { intros i j. unfold is_cross, crossk. cbn [fst snd]. f_equal. auto. }
    unfold sort_tup. rewrite SYM. destruct (Nat.eqb_spec (qv a) (qv b)) as [E|N].
    - destruct (Nat.ltb_spec (b - off (ecv R) (qv b)) (a - off (ecv R) (qv a))) as [L|L].
      + rewrite E in *. lia.
      + exists a, b. rewrite V, DA, DB by auto. cbn [bind]. split. do 2 f_equal; lia. split; auto.
    - destruct (gidq (qv b) <? gidq (qv a)).
      + exists b, a. rewrite V, DA, DB by auto. cbn [bind]. split. do 2 f_equal; lia. split; auto.
      + exists a, b. rewrite V, DA, DB by auto. cbn [bind]. split. do 2 f_equal; lia. split; auto.
  Qed.
  Lemma fes_key v0 v1 k : (v0, v1) = k \/ (v1, v0) = k -> fst k < snd k -> forall i, In i (fes R v0 v1) <-> key_of R i = Some k.
  Proof. intros [<-|<-]; cbn [fst snd]; intros L i; rewrite (fes_in R nq HE) by lia. now rewrite Nat.min_l, Nat.max_r by lia. now rewrite Nat.min_r, Nat.max_l by lia. Qed.
  Lemma any_key v0 v1 k : (v0, v1) = k \/ (v1, v0) = k -> fst k < snd k -> snd k < nc -> any_edge R v0 v1 = Ret (kmem k (map kd FIv)).
  Proof.
    intros E L1 L2. rewrite (any_ok R nq HE) by (destruct E as [<-|<-]; cbn [fst snd] in *; lia). f_equal. pose proof (fes_key v0 v1 k E L1) as F. destruct (FI_facts R VIS) as (_ & F1 & F2). destruct (fes R v0 v1) as [|i l]; cbn [negb].
    - symmetry. apply kmem_out. intros X. apply in_map_iff in X as (i & EI & Hi). destruct (F1 i Hi) as (_ & EK). rewrite EI in EK. now apply F in EK.
    - symmetry. apply kmem_in. assert (EK : key_of R i = Some k) by (apply F; now left). apply (F2 i); auto. apply (vis_in R nq HE). now destruct (key_facts R nq HE i k EK).
  Qed.
  Definition cst4 (pre : list key) : list nat * list nat * list nat * list nat :=
    (map (fun c => length (filter (fun id => selE c id && negb (kmem (kd id) pre)) FIv)) (seq 0 nq), map (fun c => length (filter (fun id => selX c id && negb (kmem (kd id) pre)) FIv)) (seq 0 nq),
     map (fun c => length (filter (fun k => (qk k =? c) && negb (cross k)) pre)) (seq 0 nq), map (fun c => length (filter (fun k => (qk k =? c) && cross k) pre)) (seq 0 nq)).
  Lemma kd_first k : In k (map kd FIv) -> exists i, In i FIv /\ kd i = k.
  Proof. intros H. apply in_map_iff in H as (i & E & H). eauto. Qed.
  Lemma count_add_ok pre c k : c < nq -> fst k < snd k -> snd k < nc -> qk k = c -> ~ In k pre -> count_add tabs me R c (cst4 pre) (tupk k) = Ret (cst4 (pre ++ [k])).
  Proof.
    intros Hc L1 L2 EQ NI. unfold count_add, cst4. destruct (tupk_verts k L1 L2) as (v0 & v1 & -> & EV & EC). cbn [bind]. rewrite EC, (any_key v0 v1 k EV L1 L2). destruct (FI_facts R VIS) as (ND & F1 & F2).
    assert (KE : forall (sel : nat -> nat -> bool), (forall c' i, sel c' i = true -> c' = qk (kd i)) -> forall c', c' <> c -> length (filter (fun id => sel c' id && negb (kmem (kd id) pre)) FIv) = length (filter (fun id => sel c' id && negb (kmem (kd id) (pre ++ [k]))) FIv)).
    { intros sel HS c' N. apply count_same. intros i _ S1 E. apply HS in S1. congruence. }
    assert (SE : forall c' i, selE c' i = true -> c' = qk (kd i)) by (intros c' i S1; unfold selE in S1; apply andb_prop in S1 as (S1 & _); apply Nat.eqb_eq in S1; auto).
    assert (SX : forall c' i, selX c' i = true -> c' = qk (kd i)) by (intros c' i S1; unfold selX in S1; apply andb_prop in S1 as (S1 & _); apply Nat.eqb_eq in S1; auto).
    assert (ONE : forall b, cross k = b -> map (fun c => length (filter (fun k => (qk k =? c) && cross k) (pre ++ [k]))) (seq 0 nq) = (if b then map (fun c' => if c' =? c then S (length (filter (fun k => (qk k =? c') && cross k) pre)) else length (filter (fun k => (qk k =? c') && cross k) pre)) (seq 0 nq) else map (fun c => length (filter (fun k => (qk k =? c) && cross k) pre)) (seq 0 nq))).
    { intros b Hb. destruct b; apply map_ext; intros c'; rewrite length_snoc_if, EQ, Hb. rewrite andb_true_r, (Nat.eqb_sym c). auto. now rewrite andb_false_r. }
    assert (TWO : forall b, cross k = b -> map (fun c => length (filter (fun k => (qk k =? c) && negb (cross k)) (pre ++ [k]))) (seq 0 nq) = (if b then map (fun c => length (filter (fun k => (qk k =? c) && negb (cross k)) pre)) (seq 0 nq) else map (fun c' => if c' =? c then S (length (filter (fun k => (qk k =? c') && negb (cross k)) pre)) else length (filter (fun k => (qk k =? c') && negb (cross k)) pre)) (seq 0 nq))).
    { intros b Hb. destruct b; apply map_ext; intros c'; rewrite length_snoc_if, EQ, Hb; cbn [negb]. now rewrite andb_false_r. rewrite andb_true_r, (Nat.eqb_sym c). auto. }
    rewrite (ONE (cross k) eq_refl), (TWO (cross k) eq_refl). destruct (cross k) eqn:CK; rewrite incr_ok by auto; cbn [bind]; destruct (kmem k (map kd FIv)) eqn:KM.
    - apply kmem_in, kd_first in KM as (i & Hi & Ki). assert (SI : selX c i = true) by (unfold selX; rewrite Ki, EQ, CK, Nat.eqb_refl; auto).
      rewrite (decr_ok _ nq c _ Hc (count_out kd (selX c) FIv pre k i ND Hi Ki SI NI)). cbn [bind]. f_equal. f_equal. f_equal. f_equal; apply map_seq_ext; intros c' Hc'.
      + apply count_same. intros j _ S1 E. unfold selE in S1. rewrite E, CK, andb_false_r in S1. discriminate.
      + destruct (Nat.eqb_spec c' c) as [->|N]; auto.
    - cbn [bind]. apply kmem_out in KM. f_equal. f_equal. f_equal. f_equal; apply map_seq_ext; intros c' _; apply count_same; intros j Hj _ E; apply KM; rewrite <- E; now apply in_map.
    - apply kmem_in, kd_first in KM as (i & Hi & Ki). assert (SI : selE c i = true) by (unfold selE; rewrite Ki, EQ, CK, Nat.eqb_refl; auto).
      rewrite (decr_ok _ nq c _ Hc (count_out kd (selE c) FIv pre k i ND Hi Ki SI NI)). cbn [bind]. f_equal. f_equal. f_equal. f_equal; apply map_seq_ext; intros c' Hc'.
      + destruct (Nat.eqb_spec c' c) as [->|N]; auto.
      + apply count_same. intros j _ S1 E. unfold selX in S1. rewrite E, CK, andb_false_r in S1. discriminate.
    - cbn [bind]. apply kmem_out in KM. f_equal. f_equal. f_equal. f_equal; apply map_seq_ext; intros c' _; apply count_same; intros j Hj _ E; apply KM; rewrite <- E; now apply in_map.
  Qed.
  Definition allk : list key := flat_map (fun c => ak c) (seq 0 nq).
  Lemma count_row c : c < nq -> forall ks pre, (forall k, In k ks -> fst k < snd k /\ snd k < nc /\ qk k = c) -> NoDup ks -> (forall k, In k ks -> ~ In k pre) -> foldM (count_add tabs me R c) (map tupk ks) (cst4 pre) = Ret (cst4 (pre ++ ks)).
  Proof.
    intros Hc. induction ks as [|k ks IH]; intros pre HK ND NI; cbn [map foldM]. now rewrite app_nil_r. destruct (HK k (or_introl eq_refl)) as (A & B & C). inversion ND as [|? ? N1 N2]; subst. rewrite count_add_ok by (auto; apply NI; now left). cbn [bind]. rewrite IH; auto.
    - now rewrite <- app_assoc.
    - intros k' Hk'. apply HK. now right.
    - intros k' Hk' X. apply in_app_iff in X as [X|[->|[]]]. apply (NI k'); auto. now right. contradiction.
  Qed.
  Lemma count_adds_ok : count_adds tabs me R add (cst4 []) = Ret (cst4 allk).
  Proof.
    unfold count_adds, allk. assert (G : forall n, n <= nq -> foldM (fun st c => row <- rd add c ;; foldM (count_add tabs me R c) row st) (seq 0 n) (cst4 []) = Ret (cst4 (flat_map (fun c => ak c) (seq 0 n)))).
    { induction n as [|n IH]; intros Hn; [reflexivity|]. rewrite seq_S, foldM_app, IH by lia. cbn [bind foldM Nat.add]. rewrite rd_map_seq by lia. cbn [bind]. rewrite count_row.
      - cbn [bind]. rewrite flat_map_app. cbn [flat_map]. now rewrite app_nil_r.
      - lia.
      - intros k Hk. apply (ad_k HA n k); auto; lia.
      - apply (ad_nd HA). lia.
      - intros k Hk X. apply in_flat_map in X as (c & Hc & X). apply in_seq in Hc. apply (ad_k HA c) in X; [|lia]. apply (ad_k HA n) in Hk; [|lia]. lia. }
    apply G. lia.
  Qed.

  (** *** the numbers of the coarse edges *)
  Definition restE (c : nat) : list nat := filter (fun id => selE c id && negb (kmem (kd id) allk)) FIv.
  Definition restX (c : nat) : list nat := filter (fun id => selX c id && negb (kmem (kd id) allk)) FIv.
  Definition segE (c : nat) : list key := map kd (restE c) ++ ake c.
  Definition segX (c : nat) : list key := map kd (restX c) ++ akx c.
  Definition nsE : list nat := map (fun c => length (segE c)) (seq 0 nq).
  Definition nsX : list nat := map (fun c => length (segX c)) (seq 0 nq).
  Definition CE : list key := flat_map segE (seq 0 nq) ++ flat_map segX (seq 0 nq).
  Lemma allk_in k : In k allk <-> qk k < nq /\ In k (ak (qk k)).
  Proof.
    unfold allk. rewrite in_flat_map. split.
    - intros (c & Hc & H). apply in_seq in Hc. assert (E : qk k = c) by (apply (ad_k HA c); auto; lia). rewrite E. split; auto; lia.
    - intros (L & H). exists (qk k). split; auto. apply in_seq. lia.
  Qed.
  Lemma allk_E c : c < nq -> filter (fun k => (qk k =? c) && negb (cross k)) allk = ake c.
  Proof.
    intros Hc. unfold allk. assert (G : forall cs, NoDup cs -> (forall c', In c' cs -> c' < nq) -> filter (fun k => (qk k =? c) && negb (cross k)) (flat_map (fun c => ak c) cs) = if existsb (Nat.eqb c) cs then ake c else []).
    { induction cs as [|c' cs IH]; intros ND HC; auto. inversion ND as [|? ? N1 N2]; subst. cbn [flat_map existsb]. rewrite filter_app, IH by (auto; intros; apply HC; now right). destruct (Nat.eqb_spec c c') as [<-|N]; cbn [orb].
      - apply eqb_notin in N1. rewrite N1, app_nil_r, filter_app, filter_all, filter_none. apply app_nil_r. intros k Hk. rewrite (ad_x HA c k Hk). apply andb_false_r. intros k Hk. rewrite (ad_e HA c k Hk), andb_true_r. apply Nat.eqb_eq. apply (ad_k HA c); auto. apply in_app_iff. auto.
      - rewrite (filter_none _ (ake c' ++ akx c')). auto. intros k Hk. apply (ad_k HA c') in Hk; [|apply HC; now left]. destruct (Nat.eqb_spec (qk k) c); auto. lia. }
    rewrite G. rewrite (proj2 (eqb_in c (seq 0 nq))); auto. apply in_seq. lia. apply seq_NoDup. intros c' Hc'. apply in_seq in Hc'. lia.
  Qed.
  Lemma allk_X c : c < nq -> filter (fun k => (qk k =? c) && cross k) allk = akx c.
  Proof.
    intros Hc. unfold allk. assert (G : forall cs, NoDup cs -> (forall c', In c' cs -> c' < nq) -> filter (fun k => (qk k =? c) && cross k) (flat_map (fun c => ak c) cs) = if existsb (Nat.eqb c) cs then akx c else []).
    { induction cs as [|c' cs IH]; intros ND HC; auto. inversion ND as [|? ? N1 N2]; subst. cbn [flat_map existsb]. rewrite filter_app, IH by (auto; intros; apply HC; now right). destruct (Nat.eqb_spec c c') as [<-|N]; cbn [orb].
      - apply eqb_notin in N1. rewrite N1, app_nil_r, filter_app, filter_none, filter_all. auto. intros k Hk. rewrite (ad_x HA c k Hk), andb_true_r. apply Nat.eqb_eq. apply (ad_k HA c); auto. apply in_app_iff. auto. intros k Hk. rewrite (ad_e HA c k Hk). apply andb_false_r.
      - rewrite (filter_none _ (ake c' ++ akx c')). auto. intros k Hk. apply (ad_k HA c') in Hk; [|apply HC; now left]. destruct (Nat.eqb_spec (qk k) c); auto. lia. }
    rewrite G. rewrite (proj2 (eqb_in c (seq 0 nq))); auto. apply in_seq. lia. apply seq_NoDup. intros c' Hc'. apply in_seq in Hc'. lia.
  Qed.
  Lemma segE_in c k : c < nq -> In k (segE c) -> qk k = c /\ cross k = false /\ (In k (ake c) \/ (~ In k allk /\ exists id, key_of R id = Some k)).
  Proof.
    intros Hc H. apply in_app_iff in H as [H|H].
    - apply in_map_iff in H as (id & <- & H). apply filter_In in H as (H & S1). apply andb_prop in S1 as (S1 & S2). unfold selE in S1. apply andb_prop in S1 as (S1 & S3). apply Nat.eqb_eq in S1. apply negb_true_iff in S2, S3. apply kmem_out in S2. split; auto. split; auto. right. split; auto. exists id. destruct (FI_facts R VIS) as (_ & F & _). now apply F.
    - split. apply (ad_k HA c); auto. apply in_app_iff; auto. split; auto. now apply (ad_e HA c).
  Qed.
  Lemma segX_in c k : c < nq -> In k (segX c) -> qk k = c /\ cross k = true /\ (In k (akx c) \/ (~ In k allk /\ exists id, key_of R id = Some k)).
  Proof.
    intros Hc H. apply in_app_iff in H as [H|H].
    - apply in_map_iff in H as (id & <- & H). apply filter_In in H as (H & S1). apply andb_prop in S1 as (S1 & S2). unfold selX in S1. apply andb_prop in S1 as (S1 & S3). apply Nat.eqb_eq in S1. apply negb_true_iff in S2. apply kmem_out in S2. split; auto. split; auto. right. split; auto. exists id. destruct (FI_facts R VIS) as (_ & F & _). now apply F.
    - split. apply (ad_k HA c); auto. apply in_app_iff; auto. split; auto. now apply (ad_x HA c).
  Qed.
  Lemma nodup_map_filter {A B} (f : A -> B) (p : A -> bool) l : NoDup (map f l) -> NoDup (map f (filter p l)).
  Proof. induction l as [|x l IH]; cbn [map filter]; intros H; auto. inversion H as [|? ? N1 N2]; subst. destruct (p x); auto. cbn [map]. constructor; auto. intros X. apply N1. apply in_map_iff in X as (y & <- & Hy). apply filter_In in Hy as (Hy & _). now apply in_map. Qed.
  Lemma seg_nodup c : c < nq -> NoDup (segE c) /\ NoDup (segX c).
  Proof.
    intros Hc. destruct (FI_facts R VIS) as (ND & _ & _). pose proof (ad_nd HA c Hc) as NK. split; apply nodup_app.
    - now apply nodup_map_filter.
    - now apply NoDup_app_remove_r in NK.
    - intros k Hk X. apply in_map_iff in Hk as (id & <- & Hk). apply filter_In in Hk as (_ & S1). apply andb_prop in S1 as (_ & S1). apply negb_true_iff, kmem_out in S1. apply S1. assert (Y : In (kd id) (ak c)) by (apply in_app_iff; auto). apply allk_in. destruct (ad_k HA c _ Hc Y) as (_ & _ & E). rewrite E. auto.
    - now apply nodup_map_filter.
    - now apply NoDup_app_remove_l in NK.
    - intros k Hk X. apply in_map_iff in Hk as (id & <- & Hk). apply filter_In in Hk as (_ & S1). apply andb_prop in S1 as (_ & S1). apply negb_true_iff, kmem_out in S1. apply S1. assert (Y : In (kd id) (ak c)) by (apply in_app_iff; auto). apply allk_in. destruct (ad_k HA c _ Hc Y) as (_ & _ & E). rewrite E. auto.
  Qed.
  Lemma CE_nodup : NoDup CE.
  Proof.
    unfold CE. apply nodup_app.
    - apply (nodup_flat_keys segE qk). intros c Hc. now apply seg_nodup. intros c k Hc Hk. now apply segE_in in Hk.
    - apply (nodup_flat_keys segX qk). intros c Hc. now apply seg_nodup. intros c k Hc Hk. now apply segX_in in Hk.
    - intros k H1 H2. apply in_flat_map in H1 as (c & C1 & H1), H2 as (c' & C2 & H2). apply in_seq in C1, C2. apply segE_in in H1; [|lia]. apply segX_in in H2; [|lia]. destruct H1 as (_ & H1 & _), H2 as (_ & H2 & _). congruence.
  Qed.
  Lemma CE_E c j : c < nq -> j < length (segE c) -> nth_error CE (off nsE c + j) = nth_error (segE c) j.
  Proof.
    intros Hc Hj. unfold CE. rewrite nth_error_app1. now apply flat_nth. rewrite flat_length. apply off_lt. rewrite map_length, seq_length. auto. rewrite (nth_indep _ 0 (length (segE 0))) by (rewrite map_length, seq_length; auto). rewrite (map_nth (fun c => length (segE c))), seq_nth by auto. auto.
  Qed.
  Lemma CE_X c j : c < nq -> j < length (segX c) -> nth_error CE (sum nsE + off nsX c + j) = nth_error (segX c) j.
  Proof.
    intros Hc Hj. unfold CE. rewrite nth_error_app2. rewrite flat_length. replace (sum nsE + off nsX c + j - sum (map (fun c0 : nat => length (segE c0)) (seq 0 nq))) with (off nsX c + j) by (fold nsE; lia). now apply flat_nth. rewrite flat_length. fold nsE. lia.
  Qed.
  Lemma CE_len : length CE = sum nsE + sum nsX. Proof. unfold CE. rewrite app_length, !flat_length. auto. Qed.
  Definition pk (k : key) : nat := posb key_eqb k CE.
  Lemma pk_nth i k : nth_error CE i = Some k -> pk k = i /\ i < length CE.
  Proof. intros H. assert (L : i < length CE) by (apply nth_error_Some; congruence). split; auto. unfold pk. rewrite <- (nth_error_nth CE i (0, 0) H). apply (posb_nth key_eqb key_iff); auto. apply CE_nodup. Qed.

  (** *** filling in *)
  Definition cst (D : list key) : cstate := (map (fun k => if kmem k D then Some k else None) CE, map (fun id => match key_of R id with Some k => if kmem k D then Some (pk k) else None | None => None end) (seq 0 ne)).
  Lemma fill_edge D i k : nth_error CE i = Some k -> wr (fst (cst D)) i (Some k) = Ret (fst (cst (D ++ [k]))).
  Proof.
    intros H. destruct (pk_nth i k H) as (P & L). cbn [cst fst]. rewrite wr_ok by (rewrite map_length; auto). f_equal. apply nth_ext with (d := None) (d' := None). now rewrite upd_length, !map_length. rewrite upd_length, map_length. intros j Hj.
    set (f := fun k0 : key => if kmem k0 (D ++ [k]) then Some k0 else None). rewrite (nth_indep (map f CE) None (f (0, 0))) by (rewrite map_length; auto). rewrite map_nth. unfold f. clear f. rewrite kmem_snoc. destruct (Nat.eq_dec j i) as [->|N].
    - rewrite nth_upd_eq by (rewrite map_length; auto). rewrite (nth_error_nth CE i (0, 0) H), (proj2 (key_iff k k) eq_refl). now rewrite orb_true_r.
    - rewrite nth_upd_neq by auto. set (f := fun k0 : key => if kmem k0 D then Some k0 else None). rewrite (nth_indep (map f CE) None (f (0, 0))) by (rewrite map_length; auto). rewrite map_nth. unfold f. destruct (key_eqb (nth j CE (0, 0)) k) eqn:E; [|now rewrite orb_false_r]. apply key_iff in E. exfalso. apply N. rewrite <- (nth_error_nth CE i (0, 0) H) in E. pose proof CE_nodup as ND. rewrite (NoDup_nth CE (0, 0)) in ND. now apply ND.
  Qed.
  Lemma fill_map D k l i : nth_error CE i = Some k -> (forall id, In id l <-> key_of R id = Some k) -> foldM (fun em feid => wr em feid (Some i)) l (snd (cst D)) = Ret (snd (cst (D ++ [k]))).
  Proof.
    intros H HL. destruct (pk_nth i k H) as (P & _). cbn [cst snd].
    assert (G : forall l0 f, (forall id, In id l0 -> id < ne) -> foldM (fun (em : list (option nat)) feid => wr em feid (Some i)) l0 (map f (seq 0 ne)) = Ret (map (fun id => if existsb (Nat.eqb id) l0 then Some i else f id) (seq 0 ne))).
    { induction l0 as [|x l0 IH]; intros f HX; cbn [foldM]. f_equal. rewrite wr_map_seq by (apply HX; now left). cbn [bind]. rewrite IH by (intros; apply HX; now right). f_equal. apply map_ext. intros id. cbn [existsb]. destruct (id =? x); cbn [orb]; auto. destruct (existsb _ l0); auto. }
    rewrite G. 2: { intros id Hid. apply HL in Hid. now destruct (key_facts R nq HE id k Hid). } f_equal. apply map_ext. intros id. destruct (existsb (Nat.eqb id) l) eqn:E.
    - apply eqb_in, HL in E. rewrite E. rewrite (proj2 (kmem_in k (D ++ [k]))). now rewrite P. apply in_app_iff. right; now left.
    - apply eqb_notin in E. destruct (key_of R id) as [k'|] eqn:EK; auto. rewrite kmem_app. unfold kmem at 3. cbn [existsb]. destruct (key_eqb k' k) eqn:EQ; [|now rewrite !orb_false_r]. apply key_iff in EQ as ->. exfalso. apply E. now apply HL.
  Qed.
  Lemma set_cedge_ok D i k : nth_error CE i = Some k -> fst k < snd k -> snd k < nc -> set_cedge tabs me R (cst D, i) (tupk k) = Ret (cst (D ++ [k]), S i).
  Proof.
    intros H L1 L2. unfold set_cedge. destruct (tupk_verts k L1 L2) as (v0 & v1 & E & EV & _). pose proof (fill_edge D i k H) as X1. destruct (cst D) as [ce em] eqn:ED. cbn [fst] in X1. rewrite E. cbn [bind].
    replace (if v0 <? v1 then (v0, v1) else (v1, v0)) with k. 2: { destruct EV as [<-|<-]; cbn [fst snd] in L1; destruct (Nat.ltb_spec v0 v1); auto; lia. }
    unfold key in X1 |- *. rewrite X1. cbn [bind]. rewrite (feids_ok R nq HE) by (destruct EV as [<-|<-]; cbn [fst snd] in *; lia). cbn [bind].
    replace em with (snd (cst D)) by now rewrite ED. rewrite (fill_map D k _ i H). cbn [bind]. reflexivity. intros id. now apply fes_key.
  Qed.
  Lemma set_list ks : forall D i, (forall j, j < length ks -> nth_error CE (i + j) = nth_error ks j) -> (forall k, In k ks -> fst k < snd k /\ snd k < nc) -> foldM (set_cedge tabs me R) (map tupk ks) (cst D, i) = Ret (cst (D ++ ks), i + length ks).
  Proof.
    induction ks as [|k ks IH]; intros D i H HK; cbn [map foldM]. { rewrite app_nil_r. do 2 f_equal. cbn. lia. }
    destruct (HK k (or_introl eq_refl)) as (L1 & L2). rewrite set_cedge_ok; auto. 2: { specialize (H 0 ltac:(cbn; lia)). now rewrite Nat.add_0_r in H. } cbn [bind]. rewrite IH.
    - rewrite <- app_assoc. cbn [app length]. do 2 f_equal. lia.
    - intros j Hj. specialize (H (S j) ltac:(cbn; lia)). cbn [nth_error] in H. rewrite <- H. f_equal. lia.
    - intros k' Hk'. apply HK. now right.
  Qed.
  Notation cE := (map (fun c => length (restE c)) (seq 0 nq)).
  Notation cX := (map (fun c => length (restX c)) (seq 0 nq)).
  Notation aE := (map (fun c => length (ake c)) (seq 0 nq)).
  Lemma set_adds_ok D c : c < nq -> set_adds tabs me R add cE cX aE (disps_of nsE) (disps_of nsX) (sum nsE) (cst D) c = Ret (cst (D ++ ak c)).
  Proof.
    intros Hc. unfold set_adds. rewrite !rd_map_seq by auto. rewrite !disps_rd by (unfold nsE, nsX; rewrite map_length, seq_length; lia). cbn [bind]. rewrite map_length, app_length. destruct (Nat.ltb_spec (length (ake c) + length (akx c)) (length (ake c))); [lia|].
    assert (FN : firstn (length (ake c)) (map tupk (ak c)) = map tupk (ake c)). { rewrite map_app, <- (map_length tupk (ake c)), firstn_app, firstn_all, Nat.sub_diag. cbn [firstn]. apply app_nil_r. }
    assert (SK : skipn (length (ake c)) (map tupk (ak c)) = map tupk (akx c)). { rewrite map_app, <- (map_length tupk (ake c)), skipn_app, skipn_all, Nat.sub_diag. reflexivity. }
    rewrite FN, SK.
    rewrite set_list.
    - cbn [bind]. rewrite set_list.
      + cbn [bind]. now rewrite <- app_assoc.
      + intros j Hj. replace (sum nsE + off nsX c + length (restX c) + j) with (sum nsE + off nsX c + (length (restX c) + j)) by lia. rewrite CE_X; auto. unfold segX. rewrite nth_error_app2 by (rewrite map_length; lia). f_equal. rewrite map_length. lia. unfold segX. rewrite app_length, map_length. lia.
      + intros k Hk. destruct (ad_k HA c k) as (A & B & _); auto. apply in_app_iff; auto.
    - intros j Hj. replace (off nsE c + length (restE c) + j) with (off nsE c + (length (restE c) + j)) by lia. rewrite CE_E; auto. unfold segE. rewrite nth_error_app2 by (rewrite map_length; lia). f_equal. rewrite map_length. lia. unfold segE. rewrite app_length, map_length. lia.
    - intros k Hk. destruct (ad_k HA c k) as (A & B & _); auto. apply in_app_iff; auto.
  Qed.
  Lemma all_adds : foldM (set_adds tabs me R add cE cX aE (disps_of nsE) (disps_of nsX) (sum nsE)) (seq 1 (nq - 1)) (cst []) = Ret (cst allk).
  Proof.
    assert (G : forall n, n <= nq - 1 -> foldM (set_adds tabs me R add cE cX aE (disps_of nsE) (disps_of nsX) (sum nsE)) (seq 1 n) (cst []) = Ret (cst (flat_map (fun c => ak c) (seq 1 n)))).
    { induction n as [|n IH]; intros Hn; [reflexivity|]. rewrite seq_S, foldM_app, IH by lia. cbn [bind foldM]. rewrite set_adds_ok by lia. cbn [bind]. rewrite flat_map_app. cbn [flat_map]. now rewrite app_nil_r. }
    rewrite G by lia. f_equal. f_equal. unfold allk. destruct nq as [|n] eqn:EN; auto. cbn [seq flat_map]. replace (S n - 1) with n by lia. now rewrite (ad_0 HA).
  Qed.
  Definition ok4 (k : key) : bool := negb (kmem k allk).
  Lemma rest_calls c : restE c = filter (selE c) (calls R ok4 VIS) /\ restX c = filter (selX c) (calls R ok4 VIS).
  Proof. unfold restE, restX, calls. rewrite !filter_filter. split; apply filter_ext; intros id; unfold ok4; auto. Qed.
  Lemma round4 : it_es_u tabs me R (check4) true (lam4 (disps_of nsE) (disps_of nsX) (sum nsE)) (repeat 0 nq, repeat 0 nq, cst allk) = Ret (cE, cX, cst (allk ++ map kd (calls R ok4 VIS))).
  Proof.
    destruct (it_es_u_ok tabs me R HE qk HQ check4 true (lam4 (disps_of nsE) (disps_of nsX) (sum nsE)) ok4 (fun dn s => s = (cnt selE dn, cnt selX dn, cst (allk ++ map kd dn)))) with (s0 := (repeat 0 nq, repeat 0 nq, cst allk)) as (s' & E & ES).
    - intros dn s id k -> EK NI. unfold check4. cbn [snd cst]. rewrite rd_map_seq by now destruct (key_facts R nq HE id k EK). cbn [bind]. rewrite EK. f_equal. rewrite kmem_app. apply kmem_out in NI. rewrite NI, orb_false_r. unfold ok4. destruct (kmem k allk); auto.
    - intros dn s id -> Hid. unfold check4. cbn [snd cst]. rewrite rd_map_seq by auto. cbn [bind]. eauto.
    - intros _ id k Hid EK OK LQ id' EK'. unfold ok4 in OK. apply negb_true_iff, kmem_out in OK. rewrite allk_in in OK. destruct (q_le _ _ _ _ HQ id k EK) as (_ & L).
      assert (X : forall i, key_of R i = Some k -> feq R i = qk k). { intros i Ei. destruct (Nat.eq_dec (feq R i) (qk k)); auto. exfalso. apply OK. split; auto. now apply (ad_own HA i). } rewrite !X; auto.
    - intros dn id rest s -> CV EK OK. pose proof (qk_lt id EK) as LQ. destruct (key_facts R nq HE id _ EK) as (_ & K1 & K2). exists (cnt selE (dn ++ [id]), cnt selX (dn ++ [id]), cst (allk ++ map kd (dn ++ [id]))). split; auto. unfold lam4, call_of. cbv zeta. cbn [k_ceq k_cross k_v0 k_v1 k_fes]. pose proof (rest_calls (qk (kd id))) as (RE & RX). rewrite CV, !filter_app in RE, RX. cbn [filter] in RE, RX.
      assert (PUT : forall cid, nth_error CE cid = Some (kd id) -> exists ce em, cst (allk ++ map kd dn) = (ce, em) /\ wr ce cid (Some (fst (kd id), snd (kd id))) = Ret (fst (cst (allk ++ map kd (dn ++ [id])))) /\ foldM (fun em feid => wr em feid (Some cid)) (fes R (fst (kd id)) (snd (kd id))) em = Ret (snd (cst (allk ++ map kd (dn ++ [id]))))).
      { intros cid HC. exists (fst (cst (allk ++ map kd dn))), (snd (cst (allk ++ map kd dn))). split. now destruct (cst (allk ++ map kd dn)). rewrite map_app. cbn [map]. rewrite app_assoc. replace (fst (kd id), snd (kd id)) with (kd id) by now destruct (kd id). split. now apply fill_edge. apply fill_map; auto. intros i. apply fes_key; auto. left. now destruct (kd id). }
      destruct (cross (kd id)) eqn:EC.
      + rewrite (selX_cross id true), Nat.eqb_refl in RX by auto. assert (NC : nth_error CE (sum nsE + off nsX (qk (kd id)) + length (filter (selX (qk (kd id))) dn)) = Some (kd id)).
        { rewrite CE_X; auto; unfold segX; rewrite RX, map_app, <- app_assoc. rewrite nth_error_app2 by (rewrite map_length; lia). rewrite map_length, Nat.sub_diag. reflexivity. rewrite app_length, map_length. cbn. lia. }
        destruct (PUT _ NC) as (ce & em & E1 & E2 & E3). rewrite E1. rewrite cnt_rd by auto. cbn [bind]. rewrite (cnt_hit selX) by (auto; intros c; now rewrite (selX_cross id true)). cbn [bind]. rewrite disps_rd by (unfold nsX; rewrite map_length, seq_length; lia). cbn [bind]. rewrite E2. cbn [bind]. rewrite E3. cbn [bind]. rewrite (cnt_miss selE dn id) by (intros c; now rewrite (selE_cross id true)). reflexivity.
      + rewrite (selE_cross id false), Nat.eqb_refl in RE by auto. assert (NC : nth_error CE (off nsE (qk (kd id)) + length (filter (selE (qk (kd id))) dn)) = Some (kd id)).
        { rewrite CE_E; auto; unfold segE; rewrite RE, map_app, <- app_assoc. rewrite nth_error_app2 by (rewrite map_length; lia). rewrite map_length, Nat.sub_diag. reflexivity. rewrite app_length, map_length. cbn. lia. }
        destruct (PUT _ NC) as (ce & em & E1 & E2 & E3). rewrite E1. rewrite cnt_rd by auto. cbn [bind]. rewrite (cnt_hit selE) by (auto; intros c; now rewrite (selE_cross id false)). cbn [bind]. rewrite disps_rd by (unfold nsE; rewrite map_length, seq_length; lia). cbn [bind]. rewrite E2. cbn [bind]. rewrite E3. cbn [bind]. rewrite (cnt_miss selX dn id) by (intros c; now rewrite (selX_cross id false)). reflexivity.
    - unfold cnt. cbn [filter length map]. now rewrite !repeat_seq, app_nil_r.
    - rewrite E, ES. f_equal. f_equal. f_equal; unfold cnt; apply map_ext; intros c; f_equal; symmetry; apply rest_calls.
  Qed.
  Lemma key_in_D id k : key_of R id = Some k -> In k (allk ++ map kd (calls R ok4 VIS)).
  Proof.
    intros EK. apply in_app_iff. destruct (kmem k allk) eqn:E. left. now apply kmem_in. right. destruct (FI_facts R VIS) as (_ & _ & F). assert (X : In k (map kd FIv)). { apply (F id); auto. apply (vis_in R nq HE). now destruct (key_facts R nq HE id k EK). }
    apply in_map_iff in X as (i & Ei & Hi). apply in_map_iff. exists i. split; auto. unfold calls. apply filter_In. split; auto. unfold ok4. now rewrite Ei, E.
  Qed.
  Lemma CE_src k : In k CE -> In k allk \/ exists id, key_of R id = Some k.
  Proof.
    intros H. unfold CE in H. apply in_app_iff in H as [H|H]; apply in_flat_map in H as (c & Hc & H); apply in_seq in Hc.
    - apply segE_in in H as (Q & _ & [H|(_ & H)]); auto; [|lia]. left. apply allk_in. rewrite Q. split; [lia|]. apply in_app_iff; auto.
    - apply segX_in in H as (Q & _ & [H|(_ & H)]); auto; [|lia]. left. apply allk_in. rewrite Q. split; [lia|]. apply in_app_iff; auto.
  Qed.
  Theorem finish_ok : finish tabs me R (cnt selE FIv) (cnt selX FIv) add = Ret (map (fun id => option_map pk (key_of R id)) (seq 0 ne), map Some CE, nsE, nsX).
  Proof.
    unfold finish. replace (cnt selE FIv, cnt selX FIv, repeat 0 nq, repeat 0 nq) with (cst4 []).
    2: { assert (X : forall sel : nat -> nat -> bool, map (fun c => length (filter (fun id => sel c id && negb (kmem (kd id) [])) FIv)) (seq 0 nq) = map (fun c => length (filter (sel c) FIv)) (seq 0 nq)). { intros sel. apply map_ext. intros c. f_equal. apply filter_ext. intros id. cbn. now rewrite andb_true_r. }
      unfold cst4. rewrite !X. cbn [filter length]. now rewrite !repeat_seq. }
    rewrite count_adds_ok. cbn [bind]. unfold cst4. fold (restE). cbv zeta.
    rewrite (map_seq_ext (fun c => length (filter (fun k => (qk k =? c) && negb (cross k)) allk)) (fun c => length (ake c))) by (intros c Hc; now rewrite allk_E).
    rewrite (map_seq_ext (fun c => length (filter (fun k => (qk k =? c) && cross k) allk)) (fun c => length (akx c))) by (intros c Hc; now rewrite allk_X).
    change (map (fun c => length (filter (fun id => selE c id && negb (kmem (kd id) allk)) FIv)) (seq 0 nq)) with cE. change (map (fun c => length (filter (fun id => selX c id && negb (kmem (kd id) allk)) FIv)) (seq 0 nq)) with cX.
    rewrite !add_lists_map. replace (map (fun x => length (restE x) + length (ake x)) (seq 0 nq)) with nsE by (apply map_ext; intros c; unfold segE; rewrite app_length, map_length; auto). replace (map (fun x => length (restX x) + length (akx x)) (seq 0 nq)) with nsX by (apply map_ext; intros c; unfold segX; rewrite app_length, map_length; auto).
    rewrite !disps_last. replace (repeat None (sum nsE + sum nsX), repeat None ne) with (cst []).
    2: { unfold cst. rewrite <- CE_len. f_equal. apply none_map. rewrite repeat_seq. apply map_ext. intros id. cbn. destruct (key_of R id); auto. }
    rewrite all_adds. cbn [bind]. rewrite round4. cbn [bind].
    assert (ED : cst (allk ++ map kd (calls R ok4 VIS)) = (map Some CE, map (fun id => option_map pk (key_of R id)) (seq 0 ne))).
    { unfold cst. f_equal.
      - apply map_ext_in. intros k Hk. replace (kmem k (allk ++ map kd (calls R ok4 VIS))) with true; auto. symmetry. apply kmem_in. destruct (CE_src k Hk) as [H|(id & H)]. apply in_app_iff; auto. now apply (key_in_D id).
      - apply map_ext. intros id. destruct (key_of R id) as [k|] eqn:EK; auto. cbn [option_map]. rewrite (proj2 (kmem_in _ _)); auto. now apply (key_in_D id). }
    rewrite ED. rewrite !add_lists_map. replace (map (fun x => length (restE x) + length (ake x)) (seq 0 nq)) with nsE by (apply map_ext; intros c; unfold segE; rewrite app_length, map_length; auto). replace (map (fun x => length (restX x) + length (akx x)) (seq 0 nq)) with nsX by (apply map_ext; intros c; unfold segX; rewrite app_length, map_length; auto).
    reflexivity.
  Qed.
  Lemma key_in_CE id k : key_of R id = Some k -> In k CE.
  Proof.
    intros EK. destruct (q_le _ _ _ _ HQ id k EK) as (_ & L). pose proof (key_in_D id k EK) as H. unfold CE. apply in_app_iff. apply in_app_iff in H as [H|H].
    - apply allk_in in H as (_ & H). apply in_app_iff in H as [H|H]; [left|right]; apply in_flat_map; exists (qk k); (split; [apply in_seq; lia|]); apply in_app_iff; auto.
    - apply in_map_iff in H as (i & Ei & Hi). assert (Hi' := Hi). unfold calls in Hi'. apply filter_In in Hi' as (H1 & _). destruct (cross k) eqn:EC; [right|left]; apply in_flat_map; exists (qk k); (split; [apply in_seq; lia|]); apply in_app_iff; left; apply in_map_iff; exists i; (split; auto); pose proof (rest_calls (qk k)) as (RE & RX); [rewrite RX|rewrite RE]; apply filter_In; (split; auto).
      unfold selX. rewrite Ei, EC, Nat.eqb_refl. auto. unfold selE. rewrite Ei, EC, Nat.eqb_refl. auto.
  Qed.
End Rank.
