(** Common vocabulary of the model: outcomes of C++ code, array access, fuelled loops.
    Nothing here models a particular function of /repo; it is the notation every model file uses. *)
From Coq Require Export List Arith ZArith Lia Bool Permutation Sorted.
Export ListNotations.

(** Why a piece of C++ code can fail to produce a value. *)
Inductive err : Type :=
| OutOfBounds     (* array access outside the allocated range: undefined behaviour in a release build *)
| Uninit          (* read of a never-written local / buffer entry: undefined behaviour *)
| Thrown          (* the code throws an exception *)
| OutOfFuel.      (* the fuel given to a modelled loop was not enough (excluded by the theorems) *)

Inductive res (A : Type) : Type :=
| Ret (a : A)
| Err (e : err).
Arguments Ret {A} a.
Arguments Err {A} e.

Definition bind {A B} (m : res A) (f : A -> res B) : res B :=
  match m with Ret a => f a | Err e => Err e end.
Notation "x <- m ;; k" := (bind m (fun x => k)) (at level 61, m at next level, right associativity).
Notation "' p <- m ;; k" := (bind m (fun x => match x with p => k end))
  (at level 61, p pattern, m at next level, right associativity).

(** [a[i]] *)
Definition rd {A} (a : list A) (i : nat) : res A :=
  match nth_error a i with Some v => Ret v | None => Err OutOfBounds end.

(** functional [a[i] = v]; no effect outside the range (used only after a bounds check) *)
Fixpoint upd {A} (a : list A) (i : nat) (v : A) : list A :=
  match a, i with
  | [], _ => []
  | _ :: t, O => v :: t
  | h :: t, S i' => h :: upd t i' v
  end.

(** [a[i] = v] with bounds check *)
Definition wr {A} (a : list A) (i : nat) (v : A) : res (list A) :=
  if i <? length a then Ret (upd a i v) else Err OutOfBounds.

(** [for (x : l) s = f(s, x)] *)
Fixpoint foldM {A B} (f : A -> B -> res A) (l : list B) (s : A) : res A :=
  match l with
  | [] => Ret s
  | x :: l' => s' <- f s x ;; foldM f l' s'
  end.

(** [for (int k = 0; k < n; k++) s = f(s, k)] without early exit *)
Definition for_range {A} (n : nat) (f : A -> nat -> A) (s : A) : A := fold_left f (seq 0 n) s.

(** *** Elementary facts *)
Lemma upd_length {A} (a : list A) i v : length (upd a i v) = length a.
Proof. revert i; induction a as [|h t IH]; intros [|i]; simpl; auto. Qed.

Lemma nth_error_upd_eq {A} (a : list A) i v : i < length a -> nth_error (upd a i v) i = Some v.
Proof. revert i; induction a as [|h t IH]; intros [|i] H; simpl in *; try lia; auto. apply IH; lia. Qed.

Lemma nth_error_upd_neq {A} (a : list A) i j v : i <> j -> nth_error (upd a i v) j = nth_error a j.
Proof. revert i j; induction a as [|h t IH]; intros [|i] [|j] H; simpl; auto; try lia. Qed.

Lemma nth_upd_eq {A} (a : list A) i v d : i < length a -> nth i (upd a i v) d = v.
Proof. revert i; induction a as [|h t IH]; intros [|i] H; simpl in *; try lia; auto. apply IH; lia. Qed.

Lemma nth_upd_neq {A} (a : list A) i j v d : i <> j -> nth j (upd a i v) d = nth j a d.
Proof. revert i j; induction a as [|h t IH]; intros [|i] [|j] H; simpl; auto; try lia. Qed.

Lemma rd_ok {A} (a : list A) i d : i < length a -> rd a i = Ret (nth i a d).
Proof. intros H; unfold rd. rewrite (nth_error_nth' a d H). reflexivity. Qed.

Lemma rd_inv {A} (a : list A) i v : rd a i = Ret v -> i < length a /\ forall d, nth i a d = v.
Proof.
  unfold rd. destruct (nth_error a i) eqn:E; intros H; inversion H; subst; split.
  - apply nth_error_Some; congruence.
  - intros d. apply nth_error_nth; auto.
Qed.

Lemma wr_ok {A} (a : list A) i v : i < length a -> wr a i v = Ret (upd a i v).
Proof. intros H; unfold wr. destruct (Nat.ltb_spec i (length a)); auto; lia. Qed.

Lemma foldM_app {A B} (f : A -> B -> res A) l1 l2 s :
  foldM f (l1 ++ l2) s = bind (foldM f l1 s) (foldM f l2).
Proof.
  revert s; induction l1 as [|x l IH]; intros s; simpl; auto.
  destruct (f s x); simpl; auto.
Qed.

Lemma bind_ret {A B} (m : res A) (k : A -> res B) b : bind m k = Ret b -> exists a, m = Ret a /\ k a = Ret b.
Proof. destruct m; simpl; intros; [eauto|discriminate]. Qed.

Lemma nth_ext_len {A} (a b : list A) d :
  length a = length b -> (forall i, i < length a -> nth i a d = nth i b d) -> a = b.
Proof. intros; eapply nth_ext; eauto. Qed.
