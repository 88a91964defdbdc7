(** Model of the splitting of the preserved vectors of a coarse facet into a basis and coordinates:
    /repo/src/stokes/hdiv/preserved_vectors_impl.hpp:177-338 (computePW) and 341-440 (computePWZF).

    double is modelled by the real numbers of the standard library (no rounding; 0/0 is not NaN - the theorems assume that the special vectors are not 0).
    A matrix is the list of its columns; an access outside of a matrix is [Err OutOfBounds]. [P] and [W] come uninitialised from the heap: they are arguments.
    Left out: the debug output (doco). *)
From Verif Require Import Base.
From Coq Require Import Reals.
Local Open Scope R_scope.

Notation vec := (list R) (only parsing).
(** InnerProduct *)
Definition dot (x y : vec) : R := fold_right Rplus 0 (map (fun ab => fst ab * snd ab) (combine x y)).
(** p -= a * q *)
Definition sub_scaled (p : vec) (a : R) (q : vec) : vec := map (fun xy => fst xy - a * snd xy) (combine p q).
(** p += a * q *)
Definition add_scaled (p : vec) (a : R) (q : vec) : vec := map (fun xy => fst xy + a * snd xy) (combine p q).
Definition scale (a : R) (p : vec) : vec := map (fun x => a * x) p.
Definition norm (p : vec) : R := sqrt (dot p p).

(** preserved_vectors_impl.hpp:209-210 *)
Definition lowerTol : R := / 100000000.
Definition upperTol : R := / 1000.

(** 198-205: the first nPres columns *)
Definition first_col (k : nat) (V : list vec) (st : list vec * list vec * vec) (l : nat) : res (list vec * list vec * vec) :=
  match st with (P, W, sq) =>
    v <- rd V l ;; P <- wr P l v ;; _ <- rd W l ;; w <- wr (repeat 0 k) l 1 ;; W <- wr W l w ;; sq <- wr sq l (dot v v) ;; Ret (P, W, sq)
  end.
(** 226-232 and 237-244, one column ll; [add]: 286-292, 296-302, where the factor is added to W(ll, l); state: pCol, column l of W *)
Definition orth_one (add : bool) (nPres : nat) (sq : vec) (P : list vec) (st : vec * vec) (ll : nat) : res (vec * vec) :=
  let (p, w) := st in
  q <- rd P ll ;;
  fac <- (if (ll <? nPres)%nat then s <- rd sq ll ;; Ret (dot p q / s) else Ret (dot p q)) ;;
  old <- rd w ll ;;
  w <- wr w ll (if add then old + fac else fac) ;;
  Ret (sub_scaled p fac q, w).
(** both loops, over [0, nPres) and [nPres, nVecsToUse) *)
Definition orth (add : bool) (nPres : nat) (sq : vec) (P : list vec) (nv : nat) (st : vec * vec) : res (vec * vec) :=
  st <- foldM (orth_one add nPres sq P) (seq 0 nPres) st ;; foldM (orth_one add nPres sq P) (seq nPres (nv - nPres)) st.
(** 272-274 and 313-315: W(m,l) = colNorm, P.Col(m) = pCol / colNorm, m++ *)
Definition use_col (colNorm : R) (p w : vec) (m : nat) (P : list vec) : res (nat * list vec * vec) :=
  w <- wr w m colNorm ;; P <- wr P m (scale (1 / colNorm) p) ;; Ret (S m, P, w).
(** 281-328: the tries *)
Fixpoint tries (n nPres : nat) (sq : vec) (nv : nat) (colNorm : R) (p w : vec) (m : nat) (P : list vec) : res (nat * list vec * vec) :=
  match n with
  | O => Ret (m, P, w)
  | S n =>
      st <- orth true nPres sq P nv (p, w) ;; let (p, w) := st : vec * vec in
      if Rgt_dec (norm p) (upperTol * colNorm) then use_col colNorm p w m P
      else if Rlt_dec (norm p) (lowerTol * colNorm) then Ret (m, P, w)
      else tries n nPres sq nv colNorm p w m P
  end.
(** 213-330: column l *)
Definition do_col (k : nat) (V : list vec) (nPres : nat) (sq : vec) (st : nat * list vec * list vec) (l : nat) : res (nat * list vec * list vec) :=
  match st with (m, P, W) =>
    let nv := Nat.min l m in
    v <- rd V l ;;
    w <- rd W l ;;
    st <- orth false nPres sq P nv (v, w) ;; let (p, w) := st : vec * vec in
    w <- foldM (fun w ll => wr w ll 0) (seq nv (k - nv)) w ;;
    r <- (if Rgt_dec (norm p) (upperTol * norm v) then use_col (norm p) p w m P
          else if Rgt_dec (norm p) (lowerTol * norm v) then tries 2 nPres sq nv (norm p) p w m P
          else Ret (m, P, w)) ;;
    match r with (m, P, w) => W <- wr W l w ;; Ret (m, P, W) end
  end.
(** computePW *)
Definition computePW (V : list vec) (nPres : nat) (P W : list vec) : res (nat * list vec * list vec) :=
  let k := length V in
  st <- foldM (first_col k V) (seq 0 nPres) (P, W, repeat 0 nPres) ;;
  match st with (P, W, sq) => foldM (do_col k V nPres sq) (seq nPres (k - nPres)) (nPres, P, W) end.

(** 390-402: column j loses its flow; W.Row(0) += alpha * W.Row(j) is done in every column of W *)
Definition zero_flow (f : vec) (nFlow : R) (st : list vec * list vec) (j : nat) : res (list vec * list vec) :=
  let (P, W) := st in
  q <- rd P j ;; p0 <- rd P 0%nat ;;
  let alpha := dot f q / nFlow in
  P <- wr P j (sub_scaled q alpha p0) ;;
  W <- foldM (fun W c => w <- rd W c ;; x <- rd w 0%nat ;; y <- rd w j ;; w <- wr w 0%nat (x + alpha * y) ;; wr W c w) (seq 0 (length W)) W ;;
  Ret (P, W).
(** computePWZF *)
Definition computePWZF (f : vec) (V : list vec) (nPres : nat) (P W : list vec) : res (nat * list vec * list vec) :=
  r <- computePW V nPres P W ;;
  match r with (m, P, W) =>
    p0 <- rd P 0%nat ;;
    st <- foldM (zero_flow f (dot f p0)) (seq nPres (m - nPres)) (P, W) ;;
    let (P, W) := st : list vec * list vec in Ret (m, P, W)
  end.
