(** C82-C84: the loops of the Stokes preconditioner *)
From Verif Require Import Base ArraysModel LoopModel LoopSpec LoopProofs LoopProofs2 LoopProofs3 LoopProofs4 LoopProofs5 LoopProofs6.
Import ListNotations.

(** ** C82: sorting and orienting a loop *)
Lemma flip4_ends (e : edge4) : fst (flip4 e) = snd e /\ snd (flip4 e) = fst e.
Proof. destruct e; split; reflexivity. Qed.
Lemma orient4_ends (a : edge4) (f : bool) (b : edge4) :
  orient4 a f b = (let p := if f then fst a else snd a in if pteqb p (fst b) then 1 else if pteqb p (snd b) then -1 else 0)%Z.
Proof. reflexivity. Qed.

Theorem C82_any_loop : forall l : list edge4, exists cs : list (list edge4 * list edge4),
  sortTup4Loop l = Ret (length cs, concat (map (fun bf => fst bf ++ snd bf) cs)) /\
  reordered flip4 l (concat (map (fun bf => fst bf ++ snd bf) cs)) /\
  Forall (fun bf => fst bf <> [] /\ exists s e s', trail fst snd s (fst bf) e /\ trail fst snd s' (rev (snd bf)) s) cs.
Proof. intros l. apply (sort_any flip4 orient4 fst snd pteqb (d0, d0) pteqb_ok l); intros; [apply flip4_ends|apply orient4_ends]. Qed.
Print Assumptions C82_any_loop.

Theorem C82_even_loop : forall l : list edge4, (forall v, Nat.even (touches pteqb fst snd l v) = true) -> exists cs : list (list edge4),
  sortTup4Loop l = Ret (length cs, concat cs) /\ reordered flip4 l (concat cs) /\ Forall (closed_trail fst snd) cs.
Proof. intros l. apply (sort_closed flip4 orient4 fst snd pteqb (d0, d0) pteqb_ok l); intros; [apply flip4_ends|apply orient4_ends]. Qed.
Print Assumptions C82_even_loop.

Theorem C82_ring : forall l : list edge4, l <> [] -> (forall v, touches pteqb fst snd l v = 0 \/ touches pteqb fst snd l v = 2)%nat -> one_piece fst snd l ->
  exists out, sortTup4Loop l = Ret (1%nat, out) /\ reordered flip4 l out /\ closed_trail fst snd out.
Proof. intros l. apply (sort_one flip4 orient4 fst snd pteqb (d0, d0) pteqb_ok l); intros; [apply flip4_ends|apply orient4_ends]. Qed.
Print Assumptions C82_ring.

(** the signed edge number c stands for the edge |c|-1, run through backwards when c < 0 *)
Definition code_from (edges : list (nat * nat)) (c : Z) : nat := let e := nth (Z.to_nat (Z.abs c - 1)) edges (O, O) in if (0 <? c)%Z then fst e else snd e.
Definition code_to (edges : list (nat * nat)) (c : Z) : nat := let e := nth (Z.to_nat (Z.abs c - 1)) edges (O, O) in if (0 <? c)%Z then snd e else fst e.
Definition plus_codes (enrs : list nat) : list Z := map (fun e => 1 + Z.of_nat e)%Z enrs.

Lemma codes_ok : forall enrs,
  (fix go l := match l with [] => Ret [] | None :: _ => Err Thrown | Some e :: l' => r <- go l' ;; Ret (1 + Z.of_nat e :: r)%Z end) (map Some enrs) = Ret (plus_codes enrs).
Proof. induction enrs as [|e enrs IH]; [reflexivity|]. cbn [map plus_codes]. rewrite IH. reflexivity. Qed.
Lemma plus_pos enrs c : In c (plus_codes enrs) -> (0 < c)%Z.
Proof. intros H. apply in_map_iff in H. destruct H as (e & <- & _). lia. Qed.
Lemma opp_ends edges c : (0 < c)%Z -> code_from edges (- c) = code_to edges c /\ code_to edges (- c) = code_from edges c.
Proof.
  intros H. unfold code_from, code_to. rewrite Z.abs_opp. destruct (Z.ltb_spec 0 c); [|lia]. destruct (Z.ltb_spec 0 (- c)); [lia|]. auto.
Qed.
Lemma orient_code_ends edges a f b : (0 < a)%Z -> (0 < b)%Z ->
  orient_code edges a f b = (let p := if f then code_from edges a else code_to edges a in if (p =? code_from edges b)%nat then 1 else if (p =? code_to edges b)%nat then -1 else 0)%Z.
Proof.
  intros Ha Hb. unfold orient_code, code_from, code_to, code_ends. destruct (Z.ltb_spec a 0); [lia|]. destruct (Z.ltb_spec 0 a); [|lia]. destruct (Z.ltb_spec 0 b); [|lia]. cbn [xorb]. destruct f; reflexivity.
Qed.

Theorem C82_local_ring : forall (edges : list (nat * nat)) (enrs : list nat), enrs <> [] -> (forall e, In e enrs -> (e < length edges)%nat) ->
  let l := plus_codes enrs in let from := code_from edges in let to := code_to edges in
  (forall v, touches Nat.eqb from to l v = 0 \/ touches Nat.eqb from to l v = 2)%nat -> one_piece from to l ->
  exists out, localTransformLoop edges (map Some enrs) = Ret out /\ reordered Z.opp l out /\ closed_trail from to out.
Proof.
  intros edges enrs NE _ l from to T2 OP. unfold localTransformLoop. rewrite codes_ok. cbn [bind].
  destruct (sort_one Z.opp (orient_code edges) from to Nat.eqb 0%Z Nat.eqb_eq l) as (out & E & R & C); auto.
  - intros x Hx. apply opp_ends. apply (plus_pos enrs); auto.
  - intros a f b Ha Hb. apply orient_code_ends; apply (plus_pos enrs); auto.
  - intros X. apply NE. destruct enrs; [auto|discriminate].
  - exists out. unfold l in E. rewrite E. cbn [bind]. auto.
Qed.
Print Assumptions C82_local_ring.

(** in general: one closed trail through all edges, or the exception *)
Theorem C82_local_even : forall (edges : list (nat * nat)) (enrs : list nat), (forall e, In e enrs -> (e < length edges)%nat) ->
  let l := plus_codes enrs in let from := code_from edges in let to := code_to edges in
  (forall v, Nat.even (touches Nat.eqb from to l v) = true) ->
  localTransformLoop edges (map Some enrs) = Err Thrown \/
  exists out, localTransformLoop edges (map Some enrs) = Ret out /\ reordered Z.opp l out /\ (out = [] \/ closed_trail from to out).
Proof.
  intros edges enrs _ l from to EV. unfold localTransformLoop. rewrite codes_ok. cbn [bind].
  destruct (sort_closed Z.opp (orient_code edges) from to Nat.eqb 0%Z Nat.eqb_eq l) as (cs & E & R & C); auto.
  - intros x Hx. apply opp_ends. apply (plus_pos enrs); auto.
  - intros a f b Ha Hb. apply orient_code_ends; apply (plus_pos enrs); auto.
  - unfold l in E. rewrite E. cbn [bind]. destruct (Nat.ltb_spec 1 (length cs)); [left; reflexivity|]. right. eexists. split; [reflexivity|]. split; [exact R|].
    destruct cs as [|c [|? ?]]; cbn in *; auto; [|lia]. rewrite app_nil_r. right. inversion C; auto.
Qed.
Print Assumptions C82_local_even.

Theorem C82_missing_edge : forall edges enrs, In None enrs -> localTransformLoop edges enrs = Err Thrown.
Proof.
  intros edges enrs H. unfold localTransformLoop.
  assert (X : (fix go l := match l with [] => Ret [] | None :: _ => Err Thrown | Some e :: l' => r <- go l' ;; Ret (1 + Z.of_nat e :: r)%Z end) enrs = Err Thrown).
  { induction enrs as [|[e|] enrs IH]; [destruct H| |reflexivity]. destruct H as [H|H]; [discriminate|]. rewrite (IH H). reflexivity. }
  rewrite X. reflexivity.
Qed.
Print Assumptions C82_missing_edge.

(** two rings with a common vertex, a closed loop in one piece: cut in two, and the local version throws *)
Definition ex8 : list (nat * nat) := [(2, 3); (1, 3); (1, 2); (1, 4); (4, 5); (1, 5)]%nat.
Theorem C82_touching_rings_refuted : exists (edges : list (nat * nat)) (enrs : list nat),
  let l := plus_codes enrs in (forall e, In e enrs -> (e < length edges)%nat) /\ NoDup enrs /\
  (forall v, Nat.even (touches Nat.eqb (code_from edges) (code_to edges) l v) = true) /\ one_piece (code_from edges) (code_to edges) l /\
  localTransformLoop edges (map Some enrs) = Err Thrown.
Proof.
  exists ex8, [0; 1; 2; 3; 4; 5]%nat. cbv zeta. split; [cbn; intros e He; lia|]. split; [repeat constructor; cbn; lia|]. split.
  - intros v. destruct (le_lt_dec 6 v) as [H|H].
    + assert (X : touches Nat.eqb (code_from ex8) (code_to ex8) (plus_codes [0; 1; 2; 3; 4; 5]%nat) v = 0%nat); [|rewrite X; reflexivity].
      unfold touches. do 6 (destruct v as [|v]; [lia|]). reflexivity.
    + do 6 (destruct v as [|v]; [reflexivity|]). lia.
  - split; [|vm_compute; reflexivity]. intros f H.
    assert (A : forall c, In c (plus_codes [0; 1; 2; 3; 4; 5]%nat) -> f (code_from ex8 c) = f 1%nat).
    { pose proof (H 1%Z ltac:(cbn; auto)). pose proof (H 2%Z ltac:(cbn; auto)). pose proof (H 3%Z ltac:(cbn; auto)). pose proof (H 4%Z ltac:(cbn; auto)). pose proof (H 5%Z ltac:(cbn; auto 8)). pose proof (H 6%Z ltac:(cbn; auto 8)).
      vm_compute in * |-. intros c Hc. cbn in Hc. repeat destruct Hc as [<-|Hc]; try destruct Hc; vm_compute; congruence. }
    intros x y Hx Hy. rewrite !A; auto.
Qed.
Print Assumptions C82_touching_rings_refuted.
Example C82_nonvacuous : localTransformLoop [(0, 1); (2, 1); (3, 2); (0, 3)]%nat (map Some [1; 0; 3; 2]%nat) = Ret [2; -1; 4; 3]%Z /\
  closed_trail (code_from [(0, 1); (2, 1); (3, 2); (0, 3)]%nat) (code_to [(0, 1); (2, 1); (3, 2); (0, 3)]%nat) [2; -1; 4; 3]%Z.
Proof. split; [vm_compute; reflexivity|]. split; [discriminate|]. exists 2%nat. cbn. auto 8. Qed.

(** ** C83: cutting into simple loops *)
Theorem C83_split_closed : forall sorti (c : list pt) out, sorti_ok sorti -> c <> [] -> hd d0 c = last c d0 ->
  exists new, SplitChunk sorti c out = Ret (out ++ new) /\ Forall simple_cycle new /\ Permutation (concat (map steps new)) (proper pteqb (steps c)).
Proof. intros sorti c out HS NE C. destruct (SplitChunk_ok sorti HS c out NE) as (new & E & R). exists new. split; auto. apply result_closed; auto. split; auto. Qed.
Print Assumptions C83_split_closed.

Theorem C83_split_open : forall sorti (c : list pt) out, sorti_ok sorti -> c <> [] -> NoDup c -> (2 <= length c)%nat -> SplitChunk sorti c out = Ret (out ++ [c]).
Proof.
  intros sorti c out HS NE ND L. destruct (SplitChunk_ok sorti HS c out NE) as (new & E & R). unfold result in R.
  assert (X : hd d0 c <> last c d0).
  { destruct c as [|a [|b c]]; [congruence|cbn in L; lia|]. cbn [hd]. intros Z. assert (I : In (last (b :: c) d0) (b :: c)) by (rewrite (snoc_last (b :: c) d0) at 2 by discriminate; apply in_or_app; right; left; auto).
    change (last (a :: b :: c) d0) with (last (b :: c) d0) in Z. rewrite <- Z in I. inversion ND; auto. }
  destruct (pteqb (hd d0 c) (last c d0)) eqn:P; [apply pteqb_ok in P; congruence|]. destruct R as [[_ ->]|[N _]]; [auto|congruence].
Qed.
Print Assumptions C83_split_open.

(** an open vertex list with a repeated vertex is closed by an edge it does not have *)
Theorem C83_split_open_repeated : forall sorti (c : list pt) out, sorti_ok sorti -> c <> [] -> hd d0 c <> last c d0 -> ~ NoDup c ->
  exists new, SplitChunk sorti c out = Ret (out ++ new) /\ Forall simple_cycle new /\ Permutation (concat (map steps new)) (proper pteqb ((last c d0, hd d0 c) :: steps c)).
Proof.
  intros sorti c out HS NE C ND. destruct (SplitChunk_ok sorti HS c out NE) as (new & E & R). exists new. split; auto. unfold result in R.
  destruct (pteqb (hd d0 c) (last c d0)) eqn:P; [apply pteqb_ok in P; congruence|]. destruct R as [[N _]|[_ R]]; [congruence|auto].
Qed.
Print Assumptions C83_split_open_repeated.

Theorem C83_simple_loops : forall sorti (data : list (list edge4)) fuel, sorti_ok sorti ->
  (forall e, In e (concat data) -> (0 < fst (fst e))%Z) -> balanced pteqb (concat data) -> (2 * length (concat data) < fuel)%nat ->
  exists out, SimpleLoopsFromChunks sorti fuel data = Ret (data, out) /\ Forall simple_cycle out /\
  Permutation (concat (map steps out)) (proper pteqb (concat data)).
Proof. intros. apply simple_loops_ok; auto. Qed.
Print Assumptions C83_simple_loops.

Theorem C83_nonpositive_id_never_ends : forall sorti (data : list (list edge4)) fuel, sorti_ok sorti ->
  (exists e, In e (concat data) /\ (fst (fst e) <= 0)%Z) -> SimpleLoopsFromChunks sorti fuel data = Err OutOfFuel.
Proof.
  intros sorti data fuel HS (e & He & L). unfold SimpleLoopsFromChunks. rewrite sl_never; auto. cbn [Nat.add].
  unfold rest. clear fuel. revert He. induction (concat data) as [|x l IH]; [intros []|]. intros H. cbn [filter length].
  assert (LE : (length (filter open_entry l) <= length l)%nat) by (clear; induction l as [|y l IH]; cbn; auto; destruct (open_entry y); cbn; lia).
  destruct H as [->|H].
  - assert (X : open_entry e = false) by (apply Z.ltb_ge; auto). rewrite X. lia.
  - specialize (IH H). destruct (open_entry x); cbn; lia.
Qed.
Print Assumptions C83_nonpositive_id_never_ends.

(** a sorting function that meets the contract: insertion of the positions *)
Fixpoint pins (c : list pt) (k : nat) (l : list nat) : list nat :=
  match l with [] => [k] | j :: l' => if ptltb (nth j c d0) (nth k c d0) then j :: pins c k l' else k :: l end.
Definition psort (c : list pt) : list nat := fold_right (pins c) [] (seq 0 (length c)).
Lemma pins_perm c k l : Permutation (pins c k l) (k :: l).
Proof. induction l as [|j l IH]; cbn; auto. destruct (ptltb _ _); auto. rewrite IH. apply perm_swap. Qed.
Definition ple (c : list pt) (i j : nat) : Prop := ptltb (nth j c d0) (nth i c d0) = false.
Lemma pins_sorted c k l : StronglySorted (ple c) l -> StronglySorted (ple c) (pins c k l).
Proof.
  induction 1 as [|j l H IH F]; cbn; [repeat constructor|]. destruct (ptltb (nth j c d0) (nth k c d0)) eqn:E.
  - constructor; auto. rewrite Forall_forall in *. intros i Hi. rewrite (pins_perm c k l) in Hi. destruct Hi as [<-|Hi]; [apply ptltb_asym; auto|auto].
  - constructor; [constructor; auto|]. rewrite Forall_forall in *. intros i Hi. destruct Hi as [<-|Hi]; [exact E|]. specialize (F i Hi). unfold ple in *. destruct (ptltb (nth i c d0) (nth k c d0)) eqn:X; auto.
    exfalso. pose proof (ptltb_le_lt _ _ _ X E). congruence.
Qed.
Lemma psort_ok : sorti_ok psort.
Proof.
  intros c. assert (Pm : Permutation (psort c) (seq 0 (length c))).
  { unfold psort. induction (seq 0 (length c)) as [|k l IH]; cbn; auto. rewrite pins_perm, IH. reflexivity. }
  split; auto. assert (S : StronglySorted (ple c) (psort c)). { clear Pm. unfold psort. induction (seq 0 (length c)) as [|k l IH]; cbn; [constructor|]. apply pins_sorted; auto. }
  apply Permutation_length in Pm. rewrite seq_length in Pm. revert Pm. generalize (length c) at 1 2. intros n Pm i j [Hij Hj]. rewrite <- Pm in Hj. clear Pm n.
  revert i j Hij Hj. induction S as [|k l S IH F]; intros i j Hij Hj; [cbn in Hj; lia|]. destruct j as [|j]; [lia|]. cbn [nth length] in *. destruct i as [|i].
  - rewrite Forall_forall in F. apply F. apply nth_In. lia.
  - apply IH; lia.
Qed.

Theorem C83_split_open_refuted : exists sorti (c : list pt) new l e, sorti_ok sorti /\ SplitChunk sorti c [] = Ret new /\
  In l new /\ In e (steps l) /\ ~ In e (steps c) /\ ~ In (flip4 e) (steps c).
Proof.
  exists psort, [(1, 0); (1, 1); (1, 2); (1, 1); (1, 3)]%Z, [[(1, 1); (1, 3); (1, 0); (1, 1)]; [(1, 1); (1, 2); (1, 1)]]%Z, [(1, 1); (1, 3); (1, 0); (1, 1)]%Z, ((1, 3), (1, 0))%Z.
  split; [apply psort_ok|]. split; [vm_compute; reflexivity|]. split; [cbn; auto|]. split; [cbn; auto|].
  split; intros H; vm_compute in H; repeat destruct H as [H|H]; try discriminate; exact H.
Qed.
Print Assumptions C83_split_open_refuted.
Example C83_nonvacuous : let data := [[((1, 0), (1, 1)); ((1, 3), (1, 0))]; [((1, 1), (1, 2)); ((1, 2), (1, 1)); ((1, 1), (1, 3))]]%Z in
  balanced pteqb (concat data) /\ SimpleLoopsFromChunks psort 11 data = Ret (data, [[(1, 1); (1, 3); (1, 0); (1, 1)]; [(1, 1); (1, 2); (1, 1)]]%Z).
Proof.
  cbv zeta. split; [|vm_compute; reflexivity]. intros [a b]. cbn [concat app filter fst snd]. unfold pteqb. cbn [fst snd].
  destruct (Z.eqb_spec 1 a); cbn [andb]; [|reflexivity]. destruct (Z.eqb_spec 0 b), (Z.eqb_spec 1 b), (Z.eqb_spec 2 b), (Z.eqb_spec 3 b); subst; try lia; reflexivity.
Qed.

(** ** C84: the form in which duplicates are looked for *)
Theorem C84_same_cycle : forall slk, simple_cycle slk -> exists r, rotateVLoop slk = Ret r /\ simple_cycle r /\ length r = length slk /\
  (Permutation (steps r) (steps slk) \/ Permutation (steps r) (map flip4 (steps slk))) /\
  (forall v, In v slk -> ptltb v (hd d0 r) = false).
Proof. intros slk H. destruct (rotate_simple slk H) as (r & A & B & C & D & F & _). exists r; auto. Qed.
Print Assumptions C84_same_cycle.

(** the direction: towards the smaller neighbour of the smallest vertex if the loop starts there, towards the larger one otherwise *)
Theorem C84_direction : forall slk r, simple_cycle slk -> rotateVLoop slk = Ret r ->
  (hd d0 slk = hd d0 r -> ptltb (nth (length r - 2) r d0) (nth 1 r d0) = false) /\
  (hd d0 slk <> hd d0 r -> ptltb (nth 1 r d0) (nth (length r - 2) r d0) = false).
Proof. intros slk r H E. destruct (rotate_simple slk H) as (r' & A & _ & _ & _ & _ & F). rewrite E in A. injection A as ->. auto. Qed.
Print Assumptions C84_direction.

Theorem C84_open : forall slk, slk <> [] -> hd d0 slk <> last slk d0 ->
  rotateVLoop slk = Ret (if ptltb (last slk d0) (hd d0 slk) then rev slk else slk).
Proof. exact rotate_open. Qed.
Print Assumptions C84_open.
Theorem C84_empty : rotateVLoop [] = Err OutOfBounds /\ forall v, rotateVLoop [v] = Err OutOfBounds.
Proof. split; [reflexivity|]. intros v. unfold rotateVLoop. cbn [last length find_min]. rewrite pteqb_refl, ptltb_irrefl. reflexivity. Qed.
Print Assumptions C84_empty.

(** two rotations of one and the same cycle do not get the same form *)
Theorem C84_same_form_refuted : exists a b ra rb, simple_cycle a /\ simple_cycle b /\ Permutation (steps a) (steps b) /\
  rotateVLoop a = Ret ra /\ rotateVLoop b = Ret rb /\ ra <> rb.
Proof.
  exists [(1, 1); (1, 2); (1, 3); (1, 1)]%Z, [(1, 2); (1, 3); (1, 1); (1, 2)]%Z, [(1, 1); (1, 2); (1, 3); (1, 1)]%Z, [(1, 1); (1, 3); (1, 2); (1, 1)]%Z.
  split; [exists (1, 1)%Z, [(1, 2); (1, 3)]%Z; split; [reflexivity|split; [discriminate|repeat constructor; cbn; intuition congruence]]|].
  split; [exists (1, 2)%Z, [(1, 3); (1, 1)]%Z; split; [reflexivity|split; [discriminate|repeat constructor; cbn; intuition congruence]]|].
  split; [cbn; apply (Permutation_middle [_; _] [] _)|]. split; [vm_compute; reflexivity|]. split; [vm_compute; reflexivity|]. discriminate.
Qed.
Print Assumptions C84_same_form_refuted.
(** but among the loops that start at their smallest vertex (or among those that do not) the form depends on the cycle only *)
Lemma steps_nth : forall (l : list pt) i, (S i < length l)%nat -> nth i (steps l) (d0, d0) = (nth i l d0, nth (S i) l d0).
Proof.
  induction l as [|a l IH]; intros i H; [cbn in H; lia|]. destruct l as [|b l]; [cbn in H; lia|]. rewrite steps_cons2. destruct i as [|i]; [reflexivity|].
  cbn [nth]. rewrite IH by (cbn in *; lia). reflexivity.
Qed.
Lemma steps_length (l : list pt) : length (steps l) = (length l - 1)%nat.
Proof. unfold steps. rewrite combine_length. destruct l; [reflexivity|]. cbn [tl length]. lia. Qed.
Lemma steps_fst (l : list pt) : map fst (steps l) = removelast l.
Proof. induction l as [|a l IH]; auto. destruct l as [|b l]; auto. rewrite steps_cons2. cbn [map fst]. rewrite IH. reflexivity. Qed.
Lemma steps_in (l : list pt) i : (S i < length l)%nat -> In (nth i l d0, nth (S i) l d0) (steps l).
Proof. intros H. rewrite <- steps_nth by auto. apply nth_In. rewrite steps_length. lia. Qed.
Lemma fst_inj (l : list (pt * pt)) : NoDup (map fst l) -> forall x y, In x l -> In y l -> fst x = fst y -> x = y.
Proof.
  induction l as [|a l IH]; intros N x y Hx Hy E; [destruct Hx|]. cbn in N. inversion N as [|? ? N1 N2]; subst.
  destruct Hx as [<-|Hx], Hy as [<-|Hy]; auto; exfalso; apply N1; [rewrite E|rewrite <- E]; apply in_map; auto.
Qed.
Lemma cycle_eq (r r' : list pt) : simple_cycle r -> simple_cycle r' -> hd d0 r = hd d0 r' -> Permutation (steps r) (steps r') -> r = r'.
Proof.
  intros S1 S2 H Pm. pose proof (simple_closed r S1) as (_ & L1 & _). pose proof (simple_closed r' S2) as (_ & L2 & _).
  assert (L : length r = length r') by (apply Permutation_length in Pm; rewrite !steps_length in Pm; lia).
  assert (N : NoDup (map fst (steps r'))).
  { rewrite steps_fst. destruct S2 as (a & m & -> & _ & N). change (a :: m ++ [a]) with ((a :: m) ++ [a]). rewrite removelast_last. apply Permutation_NoDup with (m ++ [a]); auto. rewrite Permutation_app_comm. reflexivity. }
  assert (X : forall i, (i < length r)%nat -> nth i r d0 = nth i r' d0).
  { induction i as [|i IH]; intros Hi; [rewrite <- !hd_nth; auto|].
    pose proof (steps_in r i Hi) as A. rewrite Pm in A. pose proof (steps_in r' i ltac:(lia)) as B.
    pose proof (fst_inj _ N _ _ A B (IH ltac:(lia))) as E. congruence. }
  apply nth_ext with d0 d0; auto.
Qed.
Lemma ptltb_total a b : ptltb a b = false -> ptltb b a = false -> a = b.
Proof.
  destruct a as [a1 a2], b as [b1 b2]. unfold ptltb; cbn. rewrite (Z.eqb_sym b1 a1). destruct (Z.eqb_spec a1 b1); rewrite !Z.ltb_ge; intros; f_equal; lia.
Qed.
Lemma rev_id3 (r : list pt) : simple_cycle r -> nth 1 r d0 = nth (length r - 2) r d0 -> rev r = r.
Proof.
  intros SC E. pose proof (simple_closed r SC) as (_ & L & N). assert (length r = 3)%nat.
  { destruct r as [|a r]; [cbn in L; lia|]. cbn [tl nth length] in *. rewrite NoDup_nth with (d := d0) in N. destruct (length r) as [|[|n]] eqn:EL; try lia. replace (S (S (S n)) - 2)%nat with (S n) in E by lia. cbn [nth] in E. assert (0 = n)%nat by (apply N; auto; lia). lia. }
  destruct SC as (a & m & -> & _ & _). destruct m as [|b [|]]; cbn in *; try rewrite app_length in *; cbn in *; try lia. reflexivity.
Qed.
Theorem C84_same_form : forall a b ra rb, simple_cycle a -> simple_cycle b ->
  Permutation (steps a) (steps b) \/ Permutation (steps a) (map flip4 (steps b)) ->
  rotateVLoop a = Ret ra -> rotateVLoop b = Ret rb -> (hd d0 a = hd d0 ra <-> hd d0 b = hd d0 rb) -> ra = rb.
Proof.
  intros a b ra rb Sa Sb St Ea Eb Same.
  destruct (rotate_simple a Sa) as (ra' & A & SCa & La & Pa & Ma & Da1 & Da2). rewrite Ea in A. injection A as <-.
  destruct (rotate_simple b Sb) as (rb' & B & SCb & Lb & Pb & Mb & Db1 & Db2). rewrite Eb in B. injection B as <-.
  assert (FF : forall l : list edge4, map flip4 (map flip4 l) = l) by (intros l; rewrite map_map; rewrite <- (map_id l) at 2; apply map_ext; intros [? ?]; reflexivity).
  assert (PP : Permutation (steps ra) (steps rb) \/ Permutation (steps ra) (map flip4 (steps rb))).
  { assert (MF : forall l l' : list edge4, Permutation l l' -> Permutation (map flip4 l) (map flip4 l')) by (intros; apply Permutation_map; auto).
    destruct Pa as [Pa|Pa], Pb as [Pb|Pb], St as [St|St]; try apply MF in Pb as Pb'; try apply MF in St as St'; rewrite ?FF in *.
    - left. now rewrite Pa, St, Pb.
    - right. now rewrite Pa, St, Pb'.
    - right. now rewrite Pa, St, Pb'.
    - left. now rewrite Pa, St, Pb.
    - right. now rewrite Pa, St', Pb'.
    - left. now rewrite Pa, St', Pb.
    - left. now rewrite Pa, St', Pb.
    - right. now rewrite Pa, St', Pb'. }
  assert (MEM : forall (r : list pt) (v : pt), simple_cycle r -> (In v r <-> exists w, In (v, w) (steps r)) /\ (In v r <-> exists w, In (w, v) (steps r))).
  { intros r v SC. pose proof (simple_closed r SC) as (C & L & _). split; split.
    - intros H. destruct (In_nth _ _ d0 H) as (i & Hi & <-). destruct (Nat.eq_dec (S i) (length r)) as [E|E].
      + exists (nth 1 r d0). replace (nth i r d0) with (nth 0 r d0); [apply steps_in; lia|]. rewrite <- hd_nth, C, last_nth. f_equal. lia.
      + exists (nth (S i) r d0). apply steps_in. lia.
    - intros (w & H). unfold steps in H. eapply in_combine_l; eauto.
    - intros H. destruct (In_nth _ _ d0 H) as (i & Hi & <-). destruct i as [|i].
      + exists (nth (length r - 2) r d0). replace (nth 0 r d0) with (nth (S (length r - 2)) r d0); [apply steps_in; lia|]. rewrite <- hd_nth, C, last_nth. f_equal. lia.
      + exists (nth i r d0). apply steps_in. lia.
    - intros (w & H). unfold steps in H. apply in_combine_r in H. destruct r; [destruct H|right; auto]. }
  assert (HM : forall v, In v ra <-> In v rb).
  { intros v. rewrite (proj1 (MEM ra v SCa)). destruct PP as [PP|PP].
    - rewrite (proj1 (MEM rb v SCb)). split; intros (w & H); exists w; [rewrite <- PP|rewrite PP]; auto.
    - rewrite (proj2 (MEM rb v SCb)). split; intros (w & H); exists w.
      + rewrite PP in H. apply in_map_iff in H. destruct H as ([x y] & E & H). unfold flip4 in E. cbn in E. injection E as -> ->. auto.
      + rewrite PP. apply in_map_iff. exists (w, v). auto. }
  assert (SAMEV : forall (s r : list pt) (v : pt), simple_cycle s -> simple_cycle r -> Permutation (steps r) (steps s) \/ Permutation (steps r) (map flip4 (steps s)) -> (In v r <-> In v s)).
  { intros s r v S1 S2 [Q|Q]; rewrite (proj1 (MEM r v S2)).
    - rewrite (proj1 (MEM s v S1)). split; intros (w & H); exists w; [rewrite <- Q|rewrite Q]; auto.
    - rewrite (proj2 (MEM s v S1)). split; intros (w & H); exists w.
      + rewrite Q in H. apply in_map_iff in H. destruct H as ([x y] & E & H). unfold flip4 in E. cbn in E. injection E as -> ->. auto.
      + rewrite Q. apply in_map_iff. exists (w, v). auto. }
  assert (HIN : forall r : list pt, simple_cycle r -> In (hd d0 r) r) by (intros r (x & m & -> & _); cbn; auto).
  assert (HH : hd d0 ra = hd d0 rb).
  { apply ptltb_total.
    - apply Mb. apply (SAMEV b rb); auto. apply HM. apply HIN; auto.
    - apply Ma. apply (SAMEV a ra); auto. apply HM. apply HIN; auto. }
  destruct PP as [PP|PP]; [apply cycle_eq; auto|].
  assert (RR : ra = rev rb).
  { apply cycle_eq; auto; [apply rev_simple; auto| |].
    - destruct SCb as (x & m & -> & _). rewrite HH. cbn [hd rev]. rewrite rev_app_distr. reflexivity.
    - rewrite steps_rev, <- Permutation_rev. auto. }
  pose proof (simple_closed rb SCb) as (_ & L3 & _).
  assert (LR : length ra = length rb) by (rewrite RR; apply rev_length).
  assert (R1 : nth 1 ra d0 = nth (length rb - 2) rb d0) by (rewrite RR, rev_nth by lia; auto).
  assert (R2 : nth (length ra - 2) ra d0 = nth 1 rb d0) by (rewrite LR, RR, rev_nth by lia; f_equal; lia).
  rewrite R1, R2 in Da1, Da2. rewrite RR. apply rev_id3; auto.
  destruct (pteqb (hd d0 a) (hd d0 ra)) eqn:Q.
  - apply pteqb_ok in Q. apply ptltb_total; auto. apply Db1. apply Same. auto.
  - assert (Q' : hd d0 a <> hd d0 ra) by (intros X; rewrite X, pteqb_refl in Q; discriminate). apply ptltb_total; auto. apply Db2. intros X; apply Q', Same; auto.
Qed.
Print Assumptions C84_same_form.
Example C84_nonvacuous : rotateVLoop [(2, 5); (1, 7); (3, 0); (2, 5)]%Z = Ret [(1, 7); (3, 0); (2, 5); (1, 7)]%Z /\ simple_cycle [(2, 5); (1, 7); (3, 0); (2, 5)]%Z.
Proof. split; [vm_compute; reflexivity|]. exists (2, 5)%Z, [(1, 7); (3, 0)]%Z. split; [reflexivity|]. split; [discriminate|]. repeat constructor; cbn; intuition congruence. Qed.
