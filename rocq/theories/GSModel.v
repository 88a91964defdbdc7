(** Model of the sequential Gauss-Seidel smoothers and of the generic smoother combinators.
    /repo/src/base/smoothers/gssmoother.{hpp,cpp}, base_smoother.{hpp,cpp}.

    Simplifications common to the file: exact arithmetic in an arbitrary block algebra [Blk]; vectors are lists
    (all-local, no ParallelDofs); timers, prefetch hints and printing are dropped; row and dof numbers are unbounded
    naturals (the code uses int / size_t). *)
From Verif Require Import Base AGroup LinAlg LinTools.

Section Model.
  Context {B : Blk}.
  Local Notation X := (X B). Local Notation M := (M B). Local Notation K := (K B).
  Local Notation vec := (list X).

  (** BitArray::Test through a possibly null pointer: [!fds || fds->Test(k)] *)
  Definition is_free (fds : option (list bool)) (k : nat) : bool :=
    match fds with None => true | Some f => nth k f false end.
  (** BitArray::NumSet *)
  Definition num_set (f : list bool) : nat := length (filter (fun b => b) f).

  (** gssmoother.cpp:121-126 [while (c < Size) if Test(c) {first_free=c;break;}]; first_free stays 0 if there is none *)
  Fixpoint first_set (f : list bool) (c : nat) : option nat :=
    match f with [] => None | b :: f' => if b then Some c else first_set f' (S c) end.
  (** gssmoother.cpp:127-134: scan downwards from Size()-1; c counts the bits still to look at *)
  Fixpoint last_set_next (f : list bool) (c : nat) : option nat :=
    match c with O => None | S c' => if nth c' f false then Some c else last_set_next f c' end.

  (** GSS3 object: gssmoother.hpp:20-27 *)
  Record GSS3 := mkGSS3 {
    g_H : nat; g_A : @spmat B; g_free : option (list bool); g_dinv : list M; g_first : nat; g_next : nat }.

  (** GSS3::SetUp, gssmoother.cpp:110-137 -- computes (first_free, next_free) *)
  Definition gss3_range (H : nat) (fds : option (list bool)) : nat * nat :=
    match fds with
    | None => (0, H)
    | Some f =>
        if num_set f =? 0 then (0, 0)
        else if num_set f =? length f then (0, H)
        else (match first_set f 0 with Some c => c | None => 0 end,
              match last_set_next f (length f) with Some c => c | None => H end)
    end.

  (** GSS3::CalcDiags, gssmoother.cpp:142-170. [minv] is CalcInverse or, if pinv, CalcPseudoInverseTryNormal
      (dense inversion is not modelled: it is a parameter). A(i,i) is the stored diagonal entry. *)
  Definition gss3_calc_diags (minv : M -> M) (A : @spmat B) (fds : option (list bool)) (repl : list M) : list M :=
    map (fun i => if is_free fds i
                  then minv (if length repl =? 0 then entry A i i else nth i repl m0)
                  else m0) (seq 0 (length A)).

  (** both constructors, gssmoother.cpp:93-107 (the first one passes an empty repl_diag) *)
  Definition gss3_make (minv : M -> M) (A : @spmat B) (repl : list M) (fds : option (list bool)) : GSS3 :=
    let H := length A in
    let r := gss3_range H fds in
    mkGSS3 H A fds (gss3_calc_diags minv A fds repl) (fst r) (snd r).

  (** GSS3::MultAdd, gssmoother.cpp:173-191: x_i += s * dinv_i * b_i on the free rows *)
  Definition gss3_multadd (G : GSS3) (s : K) (b x : vec) : vec :=
    fold_left (fun x i => if is_free (g_free G) i
                          then vinc x i (xsc s (act (nth i (g_dinv G) m0) (ent b i))) else x)
              (seq 0 (length (g_dinv G))) x.

  (** [updateRow], gssmoother.cpp:209-212: r = RowTimesVector(k,x); x(k) += dinv * (b(k) - r) *)
  Definition rhs_row (r : @row B) (k : nat) (d : M) (b x : vec) : vec :=
    vinc x k (act d (xadd (ent b k) (xopp (row_times r x)))).
  (** [up_row], gssmoother.cpp:274-278: w = -dinv * r(k); AddRowTransToVector(k,w,r); x(k) -= w
      (written as -(dinv * r(k)) instead of (-dinv) * r(k)) *)
  Definition res_row (r : @row B) (k : nat) (d : M) (s : vec * vec) : vec * vec :=
    let (x, res) := s in
    let w := xopp (act d (ent res k)) in
    (vinc x k (xopp w), add_row_trans r w res).

  (** rows visited by GSS3::SmoothR{HS,ES}Internal(first, next, .., backwards):
      forward  gssmoother.cpp:214-232 / 280-293: Range(use_first, use_next) if use_next > use_first
      backward gssmoother.cpp:233-257 / 294-313: use_next-1 down to use_first+1, then use_first if use_next > use_first *)
  Definition gss3_rows (G : GSS3) (first next : nat) (backwards : bool) : list nat :=
    let uf := Nat.max first (g_first G) in
    let un := Nat.min next (g_next G) in
    if backwards
    then map (fun t => un - 1 - t) (seq 0 (un - 1 - uf)) ++ (if uf <? un then [uf] else [])
    else if uf <? un then seq uf (un - uf) else [].

  (** GSS3::SmoothRHSInternal, gssmoother.cpp:195-257 *)
  Definition gss3_rhs (G : GSS3) (first next : nat) (x b : vec) (backwards : bool) : vec :=
    fold_left (fun x k => if is_free (g_free G) k then rhs_row (getrow (g_A G) k) k (nth k (g_dinv G) m0) b x else x)
              (gss3_rows G first next backwards) x.
  (** GSS3::SmoothRESInternal, gssmoother.cpp:260-314; returns (x, res) *)
  Definition gss3_res (G : GSS3) (first next : nat) (x res : vec) (backwards : bool) : vec * vec :=
    fold_left (fun s k => if is_free (g_free G) k then res_row (getrow (g_A G) k) k (nth k (g_dinv G) m0) s else s)
              (gss3_rows G first next backwards) (x, res).

  (** BaseSmoother::CalcResiduum, base_smoother.hpp:132-142 *)
  Definition calc_residuum (A : vec -> vec) (x b : vec) (xzero : bool) : vec :=
    if xzero then b else b -v A x.

  (** the signature of Smooth / SmoothBack: x b res res_updated update_res x_zero -> new (x, res) *)
  Definition smooth_fun := vec -> vec -> vec -> bool -> bool -> bool -> vec * vec.

  (** GSS3::Smooth, gssmoother.cpp:349-372 and GSS3::SmoothBack, :375-396 (same text with backwards = true) *)
  Definition gss3_smooth (G : GSS3) (backwards : bool) : smooth_fun :=
    fun x b res res_updated update_res x_zero =>
      if res_updated then
        if update_res then gss3_res G 0 (g_H G) x res backwards
        else (gss3_rhs G 0 (g_H G) x b backwards, res)
      else
        if update_res then
          let res := calc_residuum (matvec (g_A G)) x b x_zero in
          gss3_res G 0 (g_H G) x res backwards
        else (gss3_rhs G 0 (g_H G) x b backwards, res).

  (** *** GSS4: Gauss-Seidel on a compressed set of rows *)
  Record GSS4 := mkGSS4 { h_xdofs : list nat; h_cA : @spmat B; h_dinv : list M }.

  (** GSS4::SetUp, gssmoother.cpp:455-506: xdofs = rows in the subset; cA = those rows, keeping ORIGINAL column
      numbers of the columns in res_subset (rows of the subset plus all their neighbours) *)
  Definition gss4_res_subset (A : @spmat B) (f : list bool) (j : nat) : bool :=
    existsb (fun k => nth k f false && ((k =? j) || existsb (fun p => fst p =? j) (getrow A k))) (seq 0 (length A)).
  Definition gss4_setup (A : @spmat B) (subset : option (list bool)) : list nat * @spmat B :=
    match subset with
    | Some f =>
        if num_set f =? length A then (seq 0 (length A), A)
        else
          let xd := filter (fun k => nth k f false) (seq 0 (length A)) in
          (xd, map (fun k => filter (fun p => gss4_res_subset A f (fst p)) (getrow A k)) xd)
    | None => (seq 0 (length A), A)
    end.
  (** GSS4 constructors, gssmoother.cpp:406-438 with CalcDiags :510-527.  [ncA(i,i)]: entry of COMPRESSED row i in
      column i. *)
  Definition gss4_make (minv : M -> M) (A : @spmat B) (repl : list M) (subset : option (list bool)) : GSS4 :=
    let (xd, cA) := gss4_setup A subset in
    mkGSS4 xd cA (map (fun i => minv (if length repl =? 0 then entry cA i i else nth (nth i xd 0) repl m0))
                      (seq 0 (length xd))).
  (** GSS4::iterate_rows, gssmoother.cpp:441-452 *)
  Definition gss4_rows (G : GSS4) (bw : bool) : list nat :=
    let n := length (h_cA G) in if bw then map (fun t => n - 1 - t) (seq 0 n) else seq 0 n.
  (** GSS4::SmoothRHSInternal, gssmoother.cpp:564-583 *)
  Definition gss4_rhs (G : GSS4) (x b : vec) (bw : bool) : vec :=
    fold_left (fun x i => rhs_row (getrow (h_cA G) i) (nth i (h_xdofs G) 0) (nth i (h_dinv G) m0) b x)
              (gss4_rows G bw) x.
  (** GSS4::SmoothRESInternal, gssmoother.cpp:542-561 *)
  Definition gss4_res (G : GSS4) (x res : vec) (bw : bool) : vec * vec :=
    fold_left (fun s i => res_row (getrow (h_cA G) i) (nth i (h_xdofs G) 0) (nth i (h_dinv G) m0) s)
              (gss4_rows G bw) (x, res).

  (** *** combinators of base_smoother.hpp *)
  (** BaseSmoother::SmoothSymm, base_smoother.hpp:79-85 *)
  Definition smooth_symm (fw bw : smooth_fun) : smooth_fun :=
    fun x b res res_updated update_res x_zero =>
      let (x, res) := fw x b res res_updated update_res x_zero in
      bw x b res update_res update_res false.
  (** SmoothK / SmoothBackK / SmoothSymmK, base_smoother.hpp:87-112: one step with the given flags, then k-1 more
      (for k = 0 this is still one step: Range(k-1) is empty for an int k-1 = -1) *)
  Definition smooth_k (k : nat) (f : smooth_fun) : smooth_fun :=
    fun x b res res_updated update_res x_zero =>
      fold_left (fun s _ => f (fst s) b (snd s) update_res update_res false) (seq 0 (k - 1))
                (f x b res res_updated update_res x_zero).
  (** ProxySmoother::Smooth / SmoothBack, base_smoother.hpp:177-194 *)
  Definition proxy_smooth (nsteps : nat) (symm : bool) (fw bw : smooth_fun) (back : bool) : smooth_fun :=
    if symm then smooth_k nsteps (smooth_symm fw bw) else smooth_k nsteps (if back then bw else fw).

  (** RichardsonSmoother::Smooth (and SmoothBack, which calls it), base_smoother.cpp:62-84; A and the preconditioner
      are the operators [sysmat], [prec] *)
  Definition richardson_smooth (A prec : vec -> vec) (omega : K) : smooth_fun :=
    fun x b res res_updated update_res x_zero =>
      let '(x, res) :=
        if negb res_updated && x_zero then (x +v vsc omega (prec b), res)
        else
          let res := if negb res_updated then b -v A x else res in
          (x +v vsc omega (prec res), res) in
      (x, if update_res then b -v A x else res).

  (** JacobiSmoother, base_smoother.cpp:90-118: Richardson with the diagonal inverse, 0 at constrained dofs *)
  Definition jacobi_diag (minv : M -> M) (A : @spmat B) (fds : option (list bool)) : list M :=
    map (fun k => if is_free fds k then minv (entry A k k) else m0) (seq 0 (length A)).
  (** DiagonalMatrix::Mult (NGSolve): y_i = d_i x_i *)
  Definition diag_mult (d : list M) (x : vec) : vec := map (fun i => act (nth i d m0) (ent x i)) (seq 0 (length d)).
  Definition jacobi_smooth (minv : M -> M) (A : @spmat B) (fds : option (list bool)) (omega : K) : smooth_fun :=
    richardson_smooth (matvec A) (diag_mult (jacobi_diag minv A fds)) omega.

  (** *** HiptMairSmoother, base_smoother.cpp:124-313 *)
  Record HiptMair := mkHM {
    hm_potfirst : bool;
    hm_A : vec -> vec;                           (* GetAMatrix(): the range-space matrix *)
    hm_D : vec -> vec; hm_DT : vec -> vec;       (* D and DT *)
    hm_ARD : option (vec -> vec); hm_DTAR : option (vec -> vec);
    hm_npot : nat;
    hm_pot : bool -> smooth_fun;                 (* smpot->Smooth / SmoothBack (argument: back) *)
    hm_range : bool -> smooth_fun }.             (* smrange->Smooth / SmoothBack *)

  (** CalcPotRhs, base_smoother.cpp:164-198; returns (res, cRhs, returned flag) *)
  Definition hm_calc_pot_rhs (h : HiptMair) (x b res : vec) (res_updated x_zero update_res : bool) : vec * vec * bool :=
    if negb res_updated then
      if update_res || match hm_DTAR h with None => true | _ => false end then
        let res := calc_residuum (hm_A h) x b x_zero in (res, hm_DT h res, true)
      else
        match hm_DTAR h with
        | Some dtar => (res, hm_DT h b +v vsc (kopp k1) (dtar x), false)
        | None => (res, hm_DT h res, true) (* not reachable *)
        end
    else (res, hm_DT h res, true).
  (** ApplyPotUpdate, base_smoother.cpp:201-229; returns (x, res, returned flag) *)
  Definition hm_apply_pot_update (h : HiptMair) (x up b res : vec) (res_updated update_res : bool) : vec * vec * bool :=
    let x := x +v hm_D h up in
    let res :=
      if update_res then
        match hm_ARD h with
        | Some ard => if negb res_updated then calc_residuum (hm_A h) x b false else res -v ard up
        | None => calc_residuum (hm_A h) x b false
        end
      else res in
    (x, res, update_res).
  (** Smooth, base_smoother.cpp:232-277. The scratch vectors solpot, rhspot are set before use; respot is passed as
      scratch with res_updated = update_res = false (its content on entry, here a zero vector, does not matter). *)
  Definition hm_smooth (h : HiptMair) : smooth_fun :=
    fun x b res res_updated update_res x_zero =>
      let '(x, res, xZero) :=
        if negb (hm_potfirst h)
        then let '(x, res) := hm_range h false x b res res_updated res_updated x_zero in (x, res, false)
        else (x, res, x_zero) in
      let '(res, rhspot, resUp) := hm_calc_pot_rhs h x b res res_updated xZero res_updated in
      let '(solpot, _) := hm_pot h false (vzero (hm_npot h)) rhspot (vzero (hm_npot h)) false false true in
      let '(x, res, resUp) := hm_apply_pot_update h x solpot b res resUp (if hm_potfirst h then resUp else update_res) in
      if hm_potfirst h then hm_range h false x b res resUp update_res false else (x, res).
  (** SmoothBack, base_smoother.cpp:280-313: note that xZero is NOT reset after smrange->SmoothBack *)
  Definition hm_smooth_back (h : HiptMair) : smooth_fun :=
    fun x b res res_updated update_res x_zero =>
      let '(x, res) :=
        if hm_potfirst h
        then hm_range h true x b res res_updated res_updated x_zero
        else (x, res) in
      let '(res, rhspot, resUp) := hm_calc_pot_rhs h x b res res_updated x_zero res_updated in
      let '(solpot, _) := hm_pot h true (vzero (hm_npot h)) rhspot (vzero (hm_npot h)) false false true in
      let '(x, res, resUp) := hm_apply_pot_update h x solpot b res resUp (if hm_potfirst h then update_res else resUp) in
      if negb (hm_potfirst h) then hm_range h true x b res resUp update_res false else (x, res).
End Model.
Arguments GSS3 B : clear implicits. Arguments GSS4 B : clear implicits.
Arguments HiptMair B : clear implicits. Arguments smooth_fun B : clear implicits.
