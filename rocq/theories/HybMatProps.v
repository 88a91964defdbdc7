(** C36: splitting the matrices of all ranks into M and G. *)
From Verif Require Import Base AGroup LinAlg Instances SparseSpec EQCModel ReduceModel DccModel HybMatModel EQCProofs EQCProofs2 SparseProofs3 ReduceProofs EQCProps ReduceProps DccProofs DccProps HybMatProofs HybMatProofs2 SparseProps.
Local Open Scope nat_scope.

(** *** specification
    [dps] r k: the ranks rank r shares its dof k with; [key] r k: the global name of that dof; [rows_match dps dps key] (ReduceProps.v): the tables of the ranks fit together.
    The global matrix has, for global dofs g and h, the sum over all ranks of that rank's entries for dofs named g and h. *)
Definition global_entry {B : Blk} (dps : list (list (list nat))) (key : nat -> nat -> nat) (As : nat -> @spmat B) (g h : nat) : M B :=
  sumN m0 madd (length dps) (fun p => sumN m0 madd (length (nth p dps [])) (fun k => sumN m0 madd (length (nth p dps [])) (fun l =>
    if (key p k =? g) && (key p l =? h) then entry (As p) k l else m0))).
(** the lowest rank having dof k of rank r *)
Definition owner_rank (dps : list (list (list nat))) (r k : nat) : nat := fold_right Nat.min r (nth k (nth r dps []) []).
(** the columns of each row are increasing *)
Definition sorted_rows {B : Blk} (A : @spmat B) : Prop := forall k, increasing (map fst (getrow A k)).
Definition G_of {B : Blk} (MG : @spmat B * option (@spmat B)) : @spmat B := match snd MG with Some G => G | None => [] end.
(** local matrices that fit the sharing table *)
Definition local_matrices {B : Blk} (dps : list (list (list nat))) (As : list (@spmat B)) : Prop :=
  length As = length dps /\ forall r, r < length dps -> wf_mat (length (nth r dps [])) (length (nth r dps [])) (nth r As []) /\ sorted_rows (nth r As []).
(** a cumulated vector: every rank has the values of the global vector xg for its dofs *)
Definition cumulated {B : Blk} (dps : list (list (list nat))) (key : nat -> nat -> nat) (xs : nat -> list (X B)) (xg : nat -> X B) : Prop :=
  forall r k, r < length dps -> k < length (nth r dps []) -> ent (xs r) k = xg (key r k).

Lemma min_fold r l : (In (fold_right Nat.min r l) (r :: l)) /\ (forall x, In x (r :: l) -> fold_right Nat.min r l <= x).
Proof.
  induction l as [|a l (I1 & I2)]; cbn [fold_right]. { split. now left. intros x [<-|[]]; auto. } split.
  - destruct (Nat.min_dec a (fold_right Nat.min r l)) as [E|E]; rewrite E. right; now left. destruct I1 as [I1|I1]; [left|right; right]; auto.
  - intros x [<-|[<-|H]]. specialize (I2 r (or_introl eq_refl)). lia. lia. specialize (I2 x (or_intror H)). lia.
Qed.
Lemma home_owner dps key (RM : rows_match dps dps key) r k : r < length dps -> k < length (nth r dps []) -> owner_rank dps r k = match home_of dps r k with None => r | Some m => m end.
Proof.
  intros Hr Hk. unfold owner_rank, home_of. destruct (min_fold r (nth k (nth r dps []) [])) as (I1 & I2). set (w := fold_right _ _ _) in *. clearbody w. destruct (rHR dps key RM r k Hr Hk) as (S1 & N1 & _). fold (dproc dps r k) in *. destruct (is_master dps r k) eqn:EM.
  - pose proof (proj1 (master_spec dps key RM r k Hr Hk) EM) as O. destruct I1 as [->|I1]; auto. specialize (O _ I1). specialize (I2 r (or_introl eq_refl)). lia.
  - destruct (dproc dps r k) as [|d0 d] eqn:ED. { destruct I1 as [->|[]]; auto. }
    assert (LE : forall q, In q (d0 :: d) -> d0 <= q). { intros q [<-|Q]; auto. inversion S1; subst. rewrite Forall_forall in H2. specialize (H2 _ Q). lia. }
    assert (LT : d0 < r). { destruct (Nat.lt_ge_cases d0 r); auto. exfalso. apply not_true_iff_false in EM. apply EM. apply (master_spec dps key RM r k Hr Hk). rewrite ED. intros q Q. specialize (LE q Q). assert (q <> r) by (intros ->; contradiction). lia. }
    pose proof (I2 d0 (or_intror (or_introl eq_refl))). destruct I1 as [->|I1]. lia. specialize (LE _ I1). lia.
Qed.
Lemma ge_gent {B : Blk} dps key (As : list (@spmat B)) g h : global_entry dps key (fun p => nth p As []) g h = gent dps key (fun p => nth p As []) g h.
Proof. reflexivity. Qed.

Section C36.
  Context {B : Blk} (CM : CMon (@m0 B) madd).
  Variables (dps : list (list (list nat))) (key : nat -> nat -> nat) (RM : rows_match dps dps key) (As : list (@spmat B)) (HL : local_matrices dps As).
  Lemma c36 : exists MGs, Decompose dps As = Ret MGs /\ length MGs = length dps /\
    (forall g h, madd (global_entry dps key (fun r => fst (nth r MGs ([], None))) g h) (global_entry dps key (fun r => G_of (nth r MGs ([], None))) g h) = global_entry dps key (fun r => nth r As []) g h) /\
    (forall r, r < length dps -> let n := length (nth r dps []) in let (Mr, Gr) := nth r MGs ([], None) in
      wf_mat n n Mr /\ sorted_rows Mr /\
      (forall k l, k < n -> l < n -> lowest dps r k -> lowest dps r l -> entry Mr k l = global_entry dps key (fun p => nth p As []) (key r k) (key r l)) /\
      (forall k l, k < n -> l < n -> ~ (lowest dps r k /\ lowest dps r l) -> entry Mr k l = m0) /\
      match Gr with
      | Some G => wf_mat n n G /\ sorted_rows G /\ forall k l, k < n -> l < n -> entry G k l = if owner_rank dps r k =? owner_rank dps r l then m0 else entry (nth r As []) k l
      | None => forall k, k < n -> nth k (nth r dps []) [] = []
      end) /\
    (forall (L : BlkLaws B) xs xg, cumulated dps key xs xg -> forall g, sum_of dps key (fun r => hyb_mult (nth r MGs ([], None)) (xs r)) g = sum_of dps key (fun r => matvec (nth r As []) (xs r)) g).
  Proof.
    destruct HL as (HA & HW0). assert (HW : forall r, r < nranks dps -> wf_mat (ndof dps r) (ndof dps r) (nth r As [])) by (intros r Hr; now apply HW0). assert (HC : forall r k, r < nranks dps -> cols_sorted (getrow (nth r As []) k)). { intros r k Hr. now apply HW0. }
    destruct (Decompose_ok CM dps key RM As HA HW HC) as (MGs & E & EL & ES). exists MGs. split; auto. split; auto. split; [|split].
    - intros g h. transitivity (madd (gentf dps key (mfun dps key As) g h) (gentf dps key (G_ent dps As) g h)); [|exact (split_sum CM dps key RM As g h)]. f_equal.
      + apply sum_ext. intros p Hp. destruct (ES p Hp) as (_ & _ & S1 & _). apply gvalf_ext. exact S1.
      + apply sum_ext. intros p Hp. destruct (ES p Hp) as (_ & _ & _ & _ & S1). apply gvalf_ext. exact S1.
    - intros r Hr n. specialize (ES r Hr). destruct (nth r MGs ([], None)) as [Mr Gr]. destruct ES as (S1 & S2 & S3 & S4 & S5). cbn [fst snd] in *. split; auto. split. { intros k. apply S2. } split; [|split].
      + intros k l Hk Hl Lk Ll. apply (lowest_iff dps key RM) in Lk, Ll; auto. rewrite S3 by auto. now rewrite Lk, Ll.
      + intros k l Hk Hl N. rewrite S3 by auto. destruct (is_master dps r k && is_master dps r l) eqn:EM; auto. apply andb_prop in EM as (E1 & E2). destruct N. split; apply (lowest_iff dps key RM); auto.
      + destruct Gr as [G|]; [|exact S4]. destruct S4 as (S4 & S6). split; auto. split. { intros k. apply S6. } intros k l Hk Hl. unfold gpart in S5. cbn [snd] in S5. rewrite S5 by auto. unfold G_ent. rewrite !(home_owner dps key RM) by auto.
        destruct (home_of dps r k) as [m|] eqn:E1, (home_of dps r l) as [q|] eqn:E2; cbn [oeqb].
        * rewrite (Nat.eqb_sym q m). reflexivity.
        * apply home_lt in E1; auto. destruct (Nat.eqb_spec m r); auto; lia.
        * apply home_lt in E2; auto. destruct (Nat.eqb_spec r q); auto; lia.
        * now rewrite Nat.eqb_refl.
    - intros L xs xg HX g. exact (mult_ok CM dps key RM As HA HW L xs xg HX MGs g ES).
  Qed.
End C36.

(** Splitting never fails; M and G add up to the global matrix; M holds exactly the global entries between the dofs a rank is the lowest owner of; G holds the local entries between dofs with different owners; applying the parts to a cumulated vector represents the same global vector as applying the original matrices *)
Theorem C36_hybrid_split : forall B, CMon (@m0 B) madd -> forall dps key, rows_match dps dps key -> forall As : list (@spmat B), local_matrices dps As ->
  exists MGs, Decompose dps As = Ret MGs /\ length MGs = length dps /\
    (forall g h, madd (global_entry dps key (fun r => fst (nth r MGs ([], None))) g h) (global_entry dps key (fun r => G_of (nth r MGs ([], None))) g h) = global_entry dps key (fun r => nth r As []) g h) /\
    (forall r, r < length dps -> let n := length (nth r dps []) in let (Mr, Gr) := nth r MGs ([], None) in
      wf_mat n n Mr /\ sorted_rows Mr /\
      (forall k l, k < n -> l < n -> lowest dps r k -> lowest dps r l -> entry Mr k l = global_entry dps key (fun p => nth p As []) (key r k) (key r l)) /\
      (forall k l, k < n -> l < n -> ~ (lowest dps r k /\ lowest dps r l) -> entry Mr k l = m0) /\
      match Gr with
      | Some G => wf_mat n n G /\ sorted_rows G /\ forall k l, k < n -> l < n -> entry G k l = if owner_rank dps r k =? owner_rank dps r l then m0 else entry (nth r As []) k l
      | None => forall k, k < n -> nth k (nth r dps []) [] = []
      end) /\
    (forall (L : BlkLaws B) xs xg, cumulated dps key xs xg -> forall g, sum_of dps key (fun r => hyb_mult (nth r MGs ([], None)) (xs r)) g = sum_of dps key (fun r => matvec (nth r As []) (xs r)) g).
Proof. intros. now apply c36. Qed.

(** three ranks; entries between dofs of ranks 0, 1 and 2, coupling across owners *)
Definition A3 : list (@spmat ZBlk) := [
  [[(0, 10%Z); (1, -1%Z); (2, -2%Z)]; [(0, -1%Z); (1, 5%Z)]; [(0, -2%Z); (2, 7%Z); (3, 1%Z)]; [(2, 1%Z); (3, 3%Z)]];
  [[(0, 4%Z); (1, -3%Z); (3, 6%Z)]; [(0, -3%Z); (1, 2%Z)]; [(2, 8%Z); (3, 9%Z)]; [(0, 6%Z); (2, 9%Z); (3, 20%Z)]];
  [[(0, 30%Z); (1, 40%Z)]; [(0, 40%Z); (1, 50%Z)]]].
Lemma A3_ok : local_matrices d3 A3.
Proof.
  split; [reflexivity|]. intros r Hr. do 3 (destruct r as [|r]; [split; [apply wf_matb_ok; reflexivity|]; intros k; do 4 (destruct k as [|k]; [repeat constructor|]); destruct k; repeat constructor|]). cbn in Hr. lia.
Qed.
Example C36_ex : rows_match d3 d3 k3 /\ local_matrices d3 A3 /\
  Decompose d3 A3 = Ret [
    ([[(0, 14%Z); (1, -1%Z); (2, -5%Z)]; [(0, -1%Z); (1, 5%Z)]; [(0, -5%Z); (2, 39%Z); (3, 1%Z)]; [(2, 1%Z); (3, 11%Z)]], Some [[]; []; []; []]);
    ([[]; []; []; [(3, 70%Z)]], Some [[(3, 6%Z)]; []; [(3, 9%Z)]; [(0, 6%Z); (2, 9%Z)]]);
    ([[]; []], Some [[(1, 40%Z)]; [(0, 40%Z)]])].
Proof. split; [exact ex3_dofs|]. split; [exact A3_ok|]. vm_compute. reflexivity. Qed.
Print Assumptions C36_hybrid_split.
