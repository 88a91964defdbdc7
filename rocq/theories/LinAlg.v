(** Vectors and block-sparse matrices as the smoother code sees them.

    NgsAMG's smoothers are templates over the entry type TM of a [SparseMatrix<TM>] (double or Mat<N,N,double>)
    and the matching vector entry type TV (double or Vec<N,double>).  [Blk] collects the operations the code uses
    on these types, [BlkLaws] the laws of exact arithmetic.  Floating point rounding is NOT modelled. *)
From Verif Require Import Base AGroup.
From Coq Require Import Ring Ring_theory.

Record Blk : Type := mkBlk {
  K : Type; k0 : K; k1 : K; kadd : K -> K -> K; kmul : K -> K -> K; kopp : K -> K;   (* double *)
  X : Type; x0 : X; xadd : X -> X -> X; xopp : X -> X; xsc : K -> X -> X;             (* TV *)
  M : Type; m0 : M; madd : M -> M -> M; mtr : M -> M;                                 (* TM, mtr = Trans(.) *)
  act : M -> X -> X;                                                                  (* TM * TV *)
  dot : X -> X -> K                                                                   (* InnerProduct *)
}.
Arguments K : clear implicits. Arguments X : clear implicits. Arguments M : clear implicits.
Arguments k0 {_}. Arguments k1 {_}. Arguments kadd {_}. Arguments kmul {_}. Arguments kopp {_}.
Arguments x0 {_}. Arguments xadd {_}. Arguments xopp {_}. Arguments xsc {_}.
Arguments m0 {_}. Arguments madd {_}. Arguments mtr {_}. Arguments act {_}. Arguments dot {_}.

Definition ksub {B : Blk} (a b : K B) : K B := kadd a (kopp b).

(** The laws of exact arithmetic for scalars, block vectors and block matrices. *)
Record BlkLaws (B : Blk) : Prop := mkBlkLaws {
  lawK : ring_theory (@k0 B) k1 kadd kmul ksub kopp eq;
  lawX : AGLaws (@x0 B) xadd xopp;
  sc_add : forall c (x y : X B), xsc c (xadd x y) = xadd (xsc c x) (xsc c y);
  sc_kadd : forall c d (x : X B), xsc (kadd c d) x = xadd (xsc c x) (xsc d x);
  sc_mul : forall c d (x : X B), xsc (kmul c d) x = xsc c (xsc d x);
  sc_1 : forall x : X B, xsc k1 x = x;
  act_add : forall (a : M B) x y, act a (xadd x y) = xadd (act a x) (act a y);
  act_sc : forall (a : M B) c x, act a (xsc c x) = xsc c (act a x);
  act_madd : forall (a b : M B) x, act (madd a b) x = xadd (act a x) (act b x);
  act_m0 : forall x, act (@m0 B) x = x0;
  mtr_madd : forall a b : M B, mtr (madd a b) = madd (mtr a) (mtr b);
  mtr_m0 : mtr (@m0 B) = m0;
  dot_add : forall x y z : X B, dot (xadd x y) z = kadd (dot x z) (dot y z);
  dot_sc : forall c (x y : X B), dot (xsc c x) y = kmul c (dot x y);
  dot_comm : forall x y : X B, dot x y = dot y x;
  dot_act : forall (a : M B) x y, dot (act a x) y = dot x (act (mtr a) y)
}.

Declare Scope vec_scope.
Delimit Scope vec_scope with v.

Section Defs.
  Context {B : Blk}.
  Local Notation X := (X B). Local Notation M := (M B). Local Notation K := (K B).

  (** vectors = [list X]; entry [i] (zero outside) *)
  Definition ent (x : list X) (i : nat) : X := nth i x x0.
  Definition vzero (n : nat) : list X := repeat x0 n.
  Definition vmap2 (f : X -> X -> X) (x y : list X) : list X :=
    map (fun p => f (fst p) (snd p)) (combine x y).
  Definition vadd := vmap2 xadd.
  Definition vsub := vmap2 (fun a b => xadd a (xopp b)).
  Definition vsc (c : K) (x : list X) : list X := map (xsc c) x.
  Fixpoint vdot (x y : list X) : K :=
    match x, y with a :: x', b :: y' => kadd (dot a b) (vdot x' y') | _, _ => k0 end.
  (** unit update: [x + e_i u] *)
  Definition vinc (x : list X) (i : nat) (u : X) : list X := upd x i (xadd (ent x i) u).
  (** [e_i u] in dimension n *)
  Definition vunit (n i : nat) (u : X) : list X := upd (vzero n) i u.

  (** sparse matrix in CRS form: row = (column, value) pairs in storage order *)
  Definition row := list (nat * M).
  Definition spmat := list row.
  Definition getrow (A : spmat) (k : nat) : row := nth k A [].
  (** [A.RowTimesVector(k, x)] of ngla/sparsematrix.hpp: sum over the stored entries of the row *)
  Definition row_times (r : row) (x : list X) : X :=
    fold_left (fun s p => xadd s (act (snd p) (ent x (fst p)))) r x0.
  (** [A.AddRowTransToVector(k, w, y)]: y(col) += Trans(val) * w for the stored entries of the row *)
  Definition add_row_trans (r : row) (w : X) (y : list X) : list X :=
    fold_left (fun y p => vinc y (fst p) (act (mtr (snd p)) w)) r y.
  (** [A * x] *)
  Definition matvec (A : spmat) (x : list X) : list X := map (fun r => row_times r x) A.

  (** *** mathematical reading of a stored matrix *)
  (** A_ij: sum of the stored values of row i with column j (0 if none) *)
  Definition row_ent (r : row) (j : nat) : M :=
    fold_right (fun p s => if fst p =? j then madd (snd p) s else s) m0 r.
  Definition entry (A : spmat) (i j : nat) : M := row_ent (getrow A i) j.
  (** n x m matrix: n rows, all column indices below m *)
  Definition wf_mat (n m : nat) (A : spmat) : Prop :=
    length A = n /\ forall i p, In p (getrow A i) -> fst p < m.
  Definition sym_mat (n : nat) (A : spmat) : Prop :=
    forall i j, i < n -> j < n -> entry A j i = mtr (entry A i j).
End Defs.
Infix "+v" := vadd (at level 50, left associativity).
Infix "-v" := vsub (at level 50, left associativity).

Section Laws.
  Context {B : Blk} (L : BlkLaws B).
  Local Notation X := (X B). Local Notation M := (M B). Local Notation K := (K B).
  Add Ring Kring : (lawK B L).
  Let LX := lawX B L.
  Ltac agx := ag LX.

  Lemma vmap2_length f (x y : list X) : length x = length y -> length (vmap2 f x y) = length x.
  Proof. intros H. unfold vmap2. rewrite map_length, combine_length. lia. Qed.
  Lemma ent_vmap2 f (x y : list X) i :
    length x = length y -> f x0 x0 = x0 -> ent (vmap2 f x y) i = f (ent x i) (ent y i).
  Proof.
    unfold ent, vmap2. revert y i. induction x as [|a x IH]; intros [|b y] i H Hf; simpl in *; try lia.
    - destruct i; auto.
    - destruct i; auto.
  Qed.
  Lemma vadd_length (x y : list X) : length x = length y -> length (x +v y) = length x.
  Proof. apply vmap2_length. Qed.
  Lemma vsub_length (x y : list X) : length x = length y -> length (x -v y) = length x.
  Proof. apply vmap2_length. Qed.
  Lemma vsc_length c (x : list X) : length (vsc c x) = length x.
  Proof. apply map_length. Qed.
  Lemma vzero_length n : length (@vzero B n) = n. Proof. apply repeat_length. Qed.
  Lemma vinc_length (x : list X) i u : length (vinc x i u) = length x. Proof. apply upd_length. Qed.
  Lemma vunit_length n i (u : X) : length (vunit n i u) = n.
  Proof. unfold vunit. rewrite upd_length. apply vzero_length. Qed.
  Lemma matvec_length A (x : list X) : length (matvec A x) = length A. Proof. apply map_length. Qed.

  Lemma xsc_0 c : xsc c (@x0 B) = x0.
  Proof.
    assert (H : xadd (xsc c (@x0 B)) (xsc c x0) = xsc c x0).
    { rewrite <- (sc_add B L). f_equal. agx. }
    apply (ag_cancel _ _ _ LX (xsc c x0)). rewrite H. agx.
  Qed.
  Lemma xsc_k0 (x : X) : xsc k0 x = x0.
  Proof.
    assert (H : xadd (xsc k0 x) (xsc k0 x) = xsc k0 x).
    { rewrite <- (sc_kadd B L). f_equal. ring. }
    apply (ag_cancel _ _ _ LX (xsc k0 x)). rewrite H. agx.
  Qed.
  Lemma xsc_m1 (x : X) : xsc (kopp k1) x = xopp x.
  Proof.
    apply (ag_cancel _ _ _ LX x). rewrite (ag_opp _ _ _ LX).
    rewrite <- (sc_1 B L x) at 1. rewrite <- (sc_kadd B L). rewrite <- (xsc_k0 x). f_equal. ring.
  Qed.
  Lemma xsc_opp c (x : X) : xsc c (xopp x) = xopp (xsc c x).
  Proof. rewrite <- !xsc_m1, <- !(sc_mul B L). f_equal. ring. Qed.
  Lemma act_x0 (a : M) : act a x0 = x0.
  Proof. rewrite <- (xsc_k0 x0) at 1. rewrite (act_sc B L). apply xsc_k0. Qed.
  Lemma act_opp (a : M) x : act a (xopp x) = xopp (act a x).
  Proof. rewrite <- !xsc_m1. apply (act_sc B L). Qed.
  Lemma dot_add_r (x y z : X) : dot x (xadd y z) = kadd (dot x y) (dot x z).
  Proof. rewrite (dot_comm B L), (dot_add B L). now rewrite !(dot_comm B L x). Qed.
  Lemma dot_sc_r c (x y : X) : dot x (xsc c y) = kmul c (dot x y).
  Proof. rewrite (dot_comm B L), (dot_sc B L). now rewrite !(dot_comm B L x). Qed.
  Lemma dot_0l (y : X) : dot x0 y = k0.
  Proof. rewrite <- (xsc_k0 x0), (dot_sc B L). ring. Qed.
  Lemma dot_0r (y : X) : dot y x0 = k0.
  Proof. rewrite (dot_comm B L). apply dot_0l. Qed.
  Lemma dot_opp_l (x y : X) : dot (xopp x) y = kopp (dot x y).
  Proof. rewrite <- xsc_m1, (dot_sc B L). ring. Qed.
  Lemma dot_opp_r (x y : X) : dot x (xopp y) = kopp (dot x y).
  Proof. rewrite (dot_comm B L), dot_opp_l. now rewrite (dot_comm B L). Qed.

  (** *** entries *)
  Lemma ent_out (x : list X) i : length x <= i -> ent x i = x0.
  Proof. intros. unfold ent. apply nth_overflow; auto. Qed.
  Lemma ent_vadd (x y : list X) i : length x = length y -> ent (x +v y) i = xadd (ent x i) (ent y i).
  Proof. intros H. apply ent_vmap2; auto. agx. Qed.
  Lemma ent_vsub (x y : list X) i : length x = length y -> ent (x -v y) i = xadd (ent x i) (xopp (ent y i)).
  Proof. intros H. unfold vsub. rewrite ent_vmap2; auto. agx. Qed.
  Lemma ent_vsc c (x : list X) i : ent (vsc c x) i = xsc c (ent x i).
  Proof. unfold ent, vsc. rewrite <- (xsc_0 c) at 1. apply map_nth. Qed.
  Lemma ent_vzero n i : ent (@vzero B n) i = x0.
  Proof. unfold ent, vzero. destruct (Nat.lt_ge_cases i n). now rewrite nth_repeat. apply nth_overflow. rewrite repeat_length. lia. Qed.
  Lemma ent_upd (x : list X) i v j :
    ent (upd x i v) j = if (i =? j) && (i <? length x) then v else ent x j.
  Proof.
    unfold ent. destruct (Nat.eqb_spec i j); simpl.
    - subst. destruct (Nat.ltb_spec j (length x)).
      + now apply nth_upd_eq.
      + rewrite !nth_overflow; auto. rewrite upd_length; auto.
    - now apply nth_upd_neq.
  Qed.
  Lemma ent_vinc (x : list X) i u j :
    ent (vinc x i u) j = if (i =? j) && (i <? length x) then xadd (ent x j) u else ent x j.
  Proof.
    unfold vinc. rewrite ent_upd. destruct (Nat.eqb_spec i j); simpl; auto. subst. reflexivity.
  Qed.
  Lemma ent_vunit n i (u : X) j : ent (vunit n i u) j = if (i =? j) && (i <? n) then u else x0.
  Proof. unfold vunit. rewrite ent_upd, vzero_length, ent_vzero. reflexivity. Qed.
  Lemma ent_ext (x y : list X) :
    length x = length y -> (forall i, i < length x -> ent x i = ent y i) -> x = y.
  Proof. intros. eapply nth_ext_len; eauto. Qed.
  Lemma vec_ext n (x y : list X) :
    length x = n -> length y = n -> (forall i, i < n -> ent x i = ent y i) -> x = y.
  Proof. intros; subst. apply ent_ext; auto. Qed.
  Lemma ent_matvec A (x : list X) i : ent (matvec A x) i = row_times (getrow A i) x.
  Proof. unfold ent, matvec, getrow. change (@x0 B) with (@row_times B [] x). apply (map_nth (fun r => row_times r x)). Qed.

  Lemma vinc_vunit n (x : list X) i u : length x = n -> vinc x i u = x +v vunit n i u.
  Proof.
    intros H. assert (H' : length x = length (vunit n i u)) by now rewrite vunit_length.
    apply (vec_ext n).
    - now rewrite vinc_length.
    - now rewrite vadd_length.
    - intros j Hj. rewrite ent_vinc, ent_vadd, ent_vunit by auto. rewrite H.
      destruct ((i =? j) && (i <? n)); agx.
  Qed.

  (** *** rows *)
  Lemma row_times_fold (r : @row B) (x : list X) s :
    fold_left (fun s p => xadd s (act (snd p) (ent x (fst p)))) r s = xadd s (row_times r x).
  Proof.
    unfold row_times. revert s. induction r as [|p r IH]; intros s; simpl. agx.
    rewrite IH, (IH (xadd x0 _)). agx.
  Qed.
  Lemma row_times_nil (x : list X) : row_times [] x = x0. Proof. reflexivity. Qed.
  Lemma row_times_cons p (r : @row B) (x : list X) :
    row_times (p :: r) x = xadd (act (snd p) (ent x (fst p))) (row_times r x).
  Proof. unfold row_times at 1. simpl. rewrite row_times_fold. agx. Qed.
  Lemma row_times_app (r1 r2 : @row B) (x : list X) : row_times (r1 ++ r2) x = xadd (row_times r1 x) (row_times r2 x).
  Proof. induction r1; simpl. rewrite row_times_nil. agx. rewrite !row_times_cons, IHr1. agx. Qed.
  Lemma row_times_add (r : @row B) (x y : list X) :
    length x = length y -> row_times r (x +v y) = xadd (row_times r x) (row_times r y).
  Proof.
    intros H. induction r as [|p r IH]; simpl. rewrite !row_times_nil; agx.
    rewrite !row_times_cons, IH, ent_vadd, (act_add B L) by auto. agx.
  Qed.
  Lemma row_times_sc (r : @row B) c (x : list X) : row_times r (vsc c x) = xsc c (row_times r x).
  Proof.
    induction r as [|p r IH]; simpl. rewrite !row_times_nil; now rewrite xsc_0.
    rewrite !row_times_cons, IH, ent_vsc, (act_sc B L), (sc_add B L); auto.
  Qed.
  Lemma row_times_zero (r : @row B) n : row_times r (vzero n) = x0.
  Proof.
    induction r as [|p r IH]; simpl; auto. rewrite row_times_cons, IH, ent_vzero, act_x0. agx.
  Qed.
  (** the sum over stored entries is the sum over all columns *)
  Definition xsum (n : nat) (f : nat -> X) : X := fold_right (fun j s => xadd (f j) s) x0 (seq 0 n).
  Lemma xsum_seq_ext a n (f g : nat -> X) : (forall j, a <= j < a + n -> f j = g j) ->
    fold_right (fun j s => xadd (f j) s) x0 (seq a n) = fold_right (fun j s => xadd (g j) s) x0 (seq a n).
  Proof.
    revert a. induction n; intros a H; simpl; auto. rewrite H by lia. f_equal. apply IHn. intros; apply H; lia.
  Qed.
  Lemma xsum_ext n (f g : nat -> X) : (forall j, j < n -> f j = g j) -> xsum n f = xsum n g.
  Proof. intros; apply xsum_seq_ext; intros; apply H; lia. Qed.
  Lemma xsum_add n (f g : nat -> X) : xsum n (fun j => xadd (f j) (g j)) = xadd (xsum n f) (xsum n g).
  Proof. unfold xsum. induction (seq 0 n); simpl. agx. rewrite IHl. agx. Qed.
  Lemma xsum_zero n : xsum n (fun _ => x0) = x0.
  Proof. unfold xsum. induction (seq 0 n); simpl; auto. rewrite IHl. agx. Qed.
  Lemma xsum_S n (f : nat -> X) : xsum (S n) f = xadd (xsum n f) (f n).
  Proof.
    unfold xsum. rewrite seq_S, fold_right_app. simpl.
    generalize (f n) as z. induction (seq 0 n) as [|q l IH]; intros z; simpl. agx. rewrite IH. agx.
  Qed.
  Lemma xsum_delta n i (u : X) : i < n -> xsum n (fun j => if i =? j then u else x0) = u.
  Proof.
    induction n; intros H; [lia|]. rewrite xsum_S. destruct (Nat.eqb_spec i n).
    - subst. rewrite (xsum_ext n _ (fun _ => x0)), xsum_zero. agx.
      intros j Hj. destruct (Nat.eqb_spec n j); auto; lia.
    - rewrite IHn by lia. agx.
  Qed.
  Lemma row_times_entries (r : @row B) m (x : list X) :
    (forall p, In p r -> fst p < m) -> row_times r x = xsum m (fun j => act (row_ent r j) (ent x j)).
  Proof.
    induction r as [|p r IH]; intros H; simpl.
    - rewrite row_times_nil. symmetry. rewrite (xsum_ext _ _ (fun _ => x0)). apply xsum_zero.
      intros; apply (act_m0 B L).
    - rewrite row_times_cons, IH by (intros; apply H; now right).
      rewrite (xsum_ext m (fun j => act (if fst p =? j then madd (snd p) (row_ent r j) else row_ent r j) (ent x j))
        (fun j => xadd (if fst p =? j then act (snd p) (ent x (fst p)) else x0) (act (row_ent r j) (ent x j)))).
      + rewrite xsum_add, xsum_delta; auto. apply H. now left.
      + intros j Hj. destruct (Nat.eqb_spec (fst p) j); [subst; apply (act_madd B L)|agx].
  Qed.
  Lemma matvec_entries A n m (x : list X) i :
    wf_mat n m A -> ent (matvec A x) i = xsum m (fun j => act (entry A i j) (ent x j)).
  Proof. intros [_ H]. rewrite ent_matvec. apply row_times_entries. apply H. Qed.

  (** adding [e_k u] to x changes (A x)_i by A_ik u *)
  Lemma row_times_vinc (r : @row B) (x : list X) k u :
    k < length x -> row_times r (vinc x k u) = xadd (row_times r x) (act (row_ent r k) u).
  Proof.
    intros Hk. induction r as [|p r IH]; simpl.
    - rewrite !row_times_nil, (act_m0 B L). agx.
    - rewrite !row_times_cons, IH, ent_vinc. apply Nat.ltb_lt in Hk. rewrite Hk, andb_true_r.
      rewrite (Nat.eqb_sym k). destruct (Nat.eqb_spec (fst p) k).
      + rewrite (act_add B L), (act_madd B L). agx.
      + agx.
  Qed.
  (** AddRowTransToVector adds Trans(A_kj) w to entry j *)
  Lemma add_row_trans_length (r : @row B) w (y : list X) : length (add_row_trans r w y) = length y.
  Proof. unfold add_row_trans. revert y. induction r; intros y; simpl; auto. now rewrite IHr, vinc_length. Qed.
  Lemma ent_add_row_trans (r : @row B) w (y : list X) j :
    j < length y -> ent (add_row_trans r w y) j = xadd (ent y j) (act (mtr (row_ent r j)) w).
  Proof.
    unfold add_row_trans. revert y. induction r as [|p r IH]; intros y Hj; simpl.
    - rewrite (mtr_m0 B L), (act_m0 B L). agx.
    - rewrite IH by now rewrite vinc_length. rewrite ent_vinc.
      destruct (Nat.eqb_spec (fst p) j); simpl.
      + subst. destruct (Nat.ltb_spec (fst p) (length y)); [|lia].
        rewrite (mtr_madd B L), (act_madd B L). agx.
      + reflexivity.
  Qed.

  (** *** vector identities *)
  Lemma vadd_comm (x y : list X) : length x = length y -> x +v y = y +v x.
  Proof.
    intros H. apply ent_ext; rewrite !vadd_length; auto. intros; rewrite !ent_vadd by auto. agx.
  Qed.
  Lemma matvec_add A (x y : list X) : length x = length y -> matvec A (x +v y) = matvec A x +v matvec A y.
  Proof.
    intros H. apply (vec_ext (length A)); try apply matvec_length.
    - rewrite vadd_length; rewrite ?matvec_length; auto.
    - intros i Hi. rewrite ent_vadd by now rewrite !matvec_length. rewrite !ent_matvec. now apply row_times_add.
  Qed.
  Lemma matvec_sc A c (x : list X) : matvec A (vsc c x) = vsc c (matvec A x).
  Proof.
    apply (vec_ext (length A)); try apply matvec_length. now rewrite vsc_length, matvec_length.
    intros i Hi. rewrite ent_vsc, !ent_matvec. apply row_times_sc.
  Qed.
  Lemma matvec_zero (A : @spmat B) n : matvec A (vzero n) = vzero (length A).
  Proof.
    apply (vec_ext (length A)). apply matvec_length. apply vzero_length.
    intros i Hi. rewrite ent_matvec, ent_vzero. apply row_times_zero.
  Qed.

  (** *** inner product *)
  Definition ksum (n : nat) (f : nat -> K) : K := fold_right (fun j s => kadd (f j) s) k0 (seq 0 n).
  Lemma ksum_seq_ext a n (f g : nat -> K) : (forall j, a <= j < a + n -> f j = g j) ->
    fold_right (fun j s => kadd (f j) s) k0 (seq a n) = fold_right (fun j s => kadd (g j) s) k0 (seq a n).
  Proof.
    revert a. induction n; intros a H; simpl; auto. rewrite H by lia. f_equal. apply IHn. intros; apply H; lia.
  Qed.
  Lemma ksum_ext n (f g : nat -> K) : (forall j, j < n -> f j = g j) -> ksum n f = ksum n g.
  Proof. intros; apply ksum_seq_ext; intros; apply H; lia. Qed.
  Lemma ksum_add n (f g : nat -> K) : ksum n (fun j => kadd (f j) (g j)) = kadd (ksum n f) (ksum n g).
  Proof. unfold ksum. induction (seq 0 n); simpl. ring. rewrite IHl. ring. Qed.
  Lemma ksum_mul n c (f : nat -> K) : ksum n (fun j => kmul c (f j)) = kmul c (ksum n f).
  Proof. unfold ksum. induction (seq 0 n); simpl. ring. rewrite IHl. ring. Qed.
  Lemma ksum_zero n : ksum n (fun _ => k0) = k0.
  Proof. unfold ksum. induction (seq 0 n); simpl; auto. rewrite IHl. ring. Qed.
  Lemma ksum_S n (f : nat -> K) : ksum (S n) f = kadd (ksum n f) (f n).
  Proof.
    unfold ksum. rewrite seq_S, fold_right_app. simpl.
    generalize (f n) as z. induction (seq 0 n) as [|q l IH]; intros z; simpl. ring. rewrite IH. ring.
  Qed.
  Lemma ksum_delta n i (u : K) : i < n -> ksum n (fun j => if i =? j then u else k0) = u.
  Proof.
    induction n; intros H; [lia|]. rewrite ksum_S. destruct (Nat.eqb_spec i n).
    - subst. rewrite (ksum_ext n _ (fun _ => k0)), ksum_zero. ring.
      intros j Hj. destruct (Nat.eqb_spec n j); auto; lia.
    - rewrite IHn by lia. ring.
  Qed.
  Lemma ksum_swap n m (f : nat -> nat -> K) :
    ksum n (fun i => ksum m (fun j => f i j)) = ksum m (fun j => ksum n (fun i => f i j)).
  Proof.
    induction n.
    - symmetry. unfold ksum at 2. simpl. apply ksum_zero.
    - rewrite ksum_S, IHn. rewrite <- ksum_add. apply ksum_ext. intros; now rewrite ksum_S.
  Qed.
  Lemma dot_xsum n (f : nat -> X) y : dot (xsum n f) y = ksum n (fun j => dot (f j) y).
  Proof. unfold xsum, ksum. induction (seq 0 n); simpl. apply dot_0l. now rewrite (dot_add B L), IHl. Qed.

  Lemma vdot_ksum n (x y : list X) : length x = n -> length y = n ->
    vdot x y = ksum n (fun i => dot (ent x i) (ent y i)).
  Proof.
    revert n y. induction x as [|a x IH]; intros n [|b y] H1 H2; simpl in *; subst n; try lia; auto.
    simpl. unfold ksum. simpl. f_equal. rewrite (IH (length x)) by lia. unfold ksum.
    rewrite <- seq_shift. induction (seq 0 (length x)); simpl; auto. now rewrite IHl.
  Qed.
  Lemma vdot_comm (x y : list X) : vdot x y = vdot y x.
  Proof. revert y. induction x; intros [|b y]; simpl; auto. now rewrite IHx, (dot_comm B L). Qed.
  Lemma vdot_add (x y z : list X) : length x = length y -> vdot (x +v y) z = kadd (vdot x z) (vdot y z).
  Proof.
    revert y z. induction x as [|a x IH]; intros [|b y] z H; simpl in *; try lia.
    - ring.
    - destruct z as [|c z]; [ring|]. fold (vmap2 xadd x y). change (vmap2 xadd x y) with (x +v y).
      rewrite IH by lia. rewrite (dot_add B L). ring.
  Qed.
  Lemma vdot_add_r (x y z : list X) : length x = length y -> vdot z (x +v y) = kadd (vdot z x) (vdot z y).
  Proof. intros. rewrite vdot_comm, vdot_add by auto. now rewrite !(vdot_comm z). Qed.
  Lemma vdot_sub (x y z : list X) : length x = length y -> vdot (x -v y) z = ksub (vdot x z) (vdot y z).
  Proof.
    revert y z. induction x as [|a x IH]; intros [|b y] z H; simpl in *; try lia.
    - ring.
    - destruct z as [|c z]; [ring|]. match goal with |- context [vdot (map _ ?q) z] =>
        change (vdot (map (fun p => xadd (fst p) (xopp (snd p))) q) z) with (vdot (x -v y) z) end.
      rewrite IH by lia. rewrite (dot_add B L), dot_opp_l. ring.
  Qed.
  Lemma vdot_sub_r (x y z : list X) : length x = length y -> vdot z (x -v y) = ksub (vdot z x) (vdot z y).
  Proof. intros. rewrite vdot_comm, vdot_sub by auto. now rewrite !(vdot_comm z). Qed.
  Lemma vdot_sc c (x y : list X) : vdot (vsc c x) y = kmul c (vdot x y).
  Proof.
    revert y. induction x as [|a x IH]; intros [|b y]; simpl; try ring.
    change (map (xsc c) x) with (vsc c x). rewrite IH, (dot_sc B L). ring.
  Qed.
  Lemma vdot_sc_r c (x y : list X) : vdot x (vsc c y) = kmul c (vdot x y).
  Proof. rewrite vdot_comm, vdot_sc. now rewrite vdot_comm. Qed.
  Lemma vdot_zero n (y : list X) : vdot (vzero n) y = k0.
  Proof. revert n. induction y; intros [|n]; simpl; auto. fold (@vzero B n). rewrite IHy, dot_0l. ring. Qed.
  Lemma vdot_unit n i u (y : list X) : length y = n -> i < n -> vdot (vunit n i u) y = dot u (ent y i).
  Proof.
    intros H Hi. rewrite (vdot_ksum n); auto using vunit_length.
    rewrite (ksum_ext n _ (fun j => if i =? j then dot u (ent y i) else k0)). now apply ksum_delta.
    intros j Hj. rewrite ent_vunit. apply Nat.ltb_lt in Hi. rewrite Hi, andb_true_r.
    destruct (Nat.eqb_spec i j); subst; auto. apply dot_0l.
  Qed.

  (** a symmetric matrix is self-adjoint *)
  Lemma matvec_adjoint n m A At (x y : list X) :
    wf_mat n m A -> wf_mat m n At -> (forall i j, i < n -> j < m -> entry At j i = mtr (entry A i j)) ->
    length x = m -> length y = n -> vdot (matvec A x) y = vdot x (matvec At y).
  Proof.
    intros WA WT HT Hx Hy.
    rewrite (vdot_ksum n) by (rewrite ?matvec_length; auto; apply WA).
    rewrite (vdot_ksum m) by (rewrite ?matvec_length; auto; apply WT).
    rewrite (ksum_ext n _ (fun i => ksum m (fun j => dot (act (entry A i j) (ent x j)) (ent y i)))).
    2:{ intros i Hi. rewrite (matvec_entries A n m) by auto. apply dot_xsum. }
    rewrite ksum_swap. apply ksum_ext. intros j Hj.
    rewrite (matvec_entries At m n) by auto. rewrite (dot_comm B L), dot_xsum.
    apply ksum_ext. intros i Hi. rewrite HT by auto. rewrite (dot_act B L). apply (dot_comm B L).
  Qed.
  Lemma matvec_self_adjoint n A (x y : list X) :
    wf_mat n n A -> sym_mat n A -> length x = n -> length y = n ->
    vdot (matvec A x) y = vdot x (matvec A y).
  Proof. intros W S. apply (matvec_adjoint n n); auto. Qed.
End Laws.
