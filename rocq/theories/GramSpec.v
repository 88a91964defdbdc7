(** What C103 says *)
From Verif Require Import Base GramModel.
From Coq Require Import Reals.
Local Open Scope R_scope.

(** k columns of height n *)
Definition matrix (n k : nat) (A : list (list R)) : Prop := length A = k /\ forall j, (j < k)%nat -> length (nth j A []) = n.
Definition col (A : list (list R)) (j : nat) : list R := nth j A [].
Definition entry (A : list (list R)) (i j : nat) : R := nth i (nth j A []) 0.
(** a 0 + .. + a (n-1) *)
Fixpoint total (a : nat -> R) (n : nat) : R := match n with O => 0 | S n => total a n + a n end.
Definition product (n : nat) (x y : list R) : R := total (fun i => nth i x 0 * nth i y 0) n.
Definition size (n : nat) (x : list R) : R := sqrt (product n x x).
(** entry i, l of P W, of whose columns and rows the first m are used *)
Definition times (m : nat) (P W : list (list R)) (i l : nat) : R := total (fun j => entry P i j * entry W j l) m.
(** the first s columns are not 0 *)
Definition not_zero (n s : nat) (V : list (list R)) : Prop := forall l, (l < s)%nat -> product n (col V l) (col V l) <> 0.
Definition orthogonal (n s : nat) (V : list (list R)) : Prop := forall l l', (l < s)%nat -> (l' < s)%nat -> l <> l' -> product n (col V l) (col V l') = 0.

(** V = P W up to a small remainder.
    V: k columns of height n, the first s of them special; P: the first m columns are the new basis; W: coordinates.
    A special column is kept as it is.  The remainder of another column is at most 1e-6 of the column (1e-8 if the special columns are orthogonal to each other).
    Every new column of the basis comes from a column l of V that is a combination of it and the columns before it, with a coefficient that is more than 1e-8 of the size of column l. *)
Definition factorisation (n k s : nat) (V : list (list R)) (m : nat) (P W : list (list R)) : Prop :=
  (s <= m <= k)%nat /\ matrix n k P /\ matrix k k W /\
  (forall l, (l < s)%nat -> col P l = col V l) /\
  (forall l j, (l < s)%nat -> entry W j l = if (j =? l)%nat then 1 else 0) /\
  (forall l, (l < k)%nat -> exists r, length r = n /\ (forall i, (i < n)%nat -> entry V i l = times m P W i l + nth i r 0) /\
     ((l < s)%nat -> forall i, nth i r 0 = 0) /\ size n r <= / 1000000 * size n (col V l) /\ (orthogonal n s V -> size n r <= / 100000000 * size n (col V l))) /\
  (forall j, (s <= j < m)%nat -> exists l, (s <= l < k)%nat /\ (j <= l)%nat /\ / 100000000 * size n (col V l) < entry W j l /\ 0 < entry W j l /\ (forall j', (j < j')%nat -> entry W j' l = 0) /\
     forall i, (i < n)%nat -> entry V i l = times (S j) P W i l).
