(** Model of the multigrid cycles: /repo/src/base/solve/amg_matrix.{hpp,cpp}.

    Simplifications: sequential run (one rank, [drops_out] = false, Distribute/Cumulate are no-ops); exact arithmetic;
    timers, debug output and commented-out code dropped; smoothers, DOF-map steps and the coarse inverse are
    functions.  Accessing a level array (smoothers, x_level, rhs_level, res_level, DOF-map steps) out of range is
    the outcome [Err OutOfBounds]. *)
From Verif Require Import Base AGroup LinAlg LinTools GSModel.

Section Model.
  Context {B : Blk}.
  Local Notation vec := (list (X B)).

  (** what AMGMatrix holds for level l < n_levels-1: smoothers[l] and step l of the DOFMap (TransferF2C = [lv_R],
      TransferC2F = [lv_P], AddC2F(s,x,y): x += s * lv_P y) *)
  Record level := mkLevel { lv_A : vec -> vec; lv_fw : smooth_fun B; lv_bw : smooth_fun B; lv_R : vec -> vec; lv_P : vec -> vec }.
  (** amg_matrix.hpp:18-28: [smoothers]/[map]; n_levels = number of DOF-map steps + 1; crs_inv: not set (None),
      set to nullptr (Some None) or a matrix; vwb *)
  Record AMGMatrix := mkAMG { am_levels : list level; am_crs : option (option (vec -> vec)); am_vwb : nat }.
  Definition n_levels (a : AMGMatrix) : nat := S (length (am_levels a)).

  (** The mutable vectors: x_level, rhs_level, res_level (one per level) and the user's x and b. *)
  Record wspace := mkWS { w_x : list vec; w_rhs : list vec; w_res : list vec; w_ux : vec; w_ub : vec }.

  (** [BaseVector &xl ( (level == 0) ? x : *x_level[level])].  [ax] says that the argument x IS *x_level[0]
      (as in MultAdd and EmbeddedAMGMatrix::Mult), [ab] that b IS *rhs_level[0]. *)
  Definition get_x (ax : bool) (w : wspace) (l : nat) : res vec :=
    if (l =? 0) && negb ax then Ret (w_ux w) else rd (w_x w) l.
  Definition set_x (ax : bool) (w : wspace) (l : nat) (v : vec) : res wspace :=
    if (l =? 0) && negb ax then Ret (mkWS (w_x w) (w_rhs w) (w_res w) v (w_ub w))
    else a <- wr (w_x w) l v ;; Ret (mkWS a (w_rhs w) (w_res w) (w_ux w) (w_ub w)).
  Definition get_b (ab : bool) (w : wspace) (l : nat) : res vec :=
    if (l =? 0) && negb ab then Ret (w_ub w) else rd (w_rhs w) l.
  Definition set_rhs (w : wspace) (l : nat) (v : vec) : res wspace :=
    a <- wr (w_rhs w) l v ;; Ret (mkWS (w_x w) a (w_res w) (w_ux w) (w_ub w)).
  Definition set_res (w : wspace) (l : nat) (v : vec) : res wspace :=
    a <- wr (w_res w) l v ;; Ret (mkWS (w_x w) (w_rhs w) a (w_ux w) (w_ub w)).
  (** [v.FVDouble() = 0.0] *)
  Definition set_zero (v : vec) : vec := vzero (length v).

  (** amg_matrix.cpp:213-242 (body of the pre-smooth loop of SmoothV; the same text in SmoothW 60-71 and, inside
      SmoothVFromLevel, 331-343): x_l = 0, res_l = b_l, Smooth(.., true, true, true), rhs_{l+1} = F2C res_l *)
  Definition pre_level (a : AMGMatrix) (ax ab : bool) (w : wspace) (l : nat) : res wspace :=
    lv <- rd (am_levels a) l ;;
    xl <- get_x ax w l ;;
    bl <- get_b ab w l ;;
    _ <- rd (w_res w) l ;;
    let '(x', r') := lv_fw lv (set_zero xl) bl bl true true true in
    w <- set_x ax w l x' ;;
    w <- set_res w l r' ;;
    set_rhs w (S l) (lv_R lv r').
  (** amg_matrix.cpp:246-272: coarsest level *)
  Definition coarse_level (a : AMGMatrix) (w : wspace) : res wspace :=
    let lc := n_levels a - 1 in
    xc <- rd (w_x w) lc ;;
    bc <- rd (w_rhs w) lc ;;
    v <- wr (w_x w) lc (match am_crs a with
                        | Some (Some inv) => inv bc
                        | Some None => set_zero xc
                        | None => set_zero xc
                        end) ;;
    Ret (mkWS v (w_rhs w) (w_res w) (w_ux w) (w_ub w)).
  (** amg_matrix.cpp:275-305 (body of the post-smooth loop): x_l += C2F x_{l+1}; SmoothBack(.., false, false, false) *)
  Definition post_level (a : AMGMatrix) (ax ab : bool) (w : wspace) (l : nat) : res wspace :=
    lv <- rd (am_levels a) l ;;
    xl <- get_x ax w l ;;
    bl <- get_b ab w l ;;
    rl <- rd (w_res w) l ;;
    xc <- rd (w_x w) (S l) ;;
    let '(x', r') := lv_bw lv (xl +v lv_P lv xc) bl rl false false false in
    w <- set_x ax w l x' ;;
    set_res w l r'.
  (** AMGMatrix::SmoothV, amg_matrix.cpp:190-307 *)
  Definition SmoothV (a : AMGMatrix) (ax ab : bool) (w : wspace) : res wspace :=
    w <- foldM (pre_level a ax ab) (seq 0 (n_levels a - 1)) w ;;
    w <- coarse_level a w ;;
    foldM (post_level a ax ab) (rev (seq 0 (n_levels a - 1))) w.

  (** AMGMatrix::SmoothVFromLevel, amg_matrix.cpp:310-374.  x, b, res are the caller's vectors; they are never one of
      the level vectors of a level > startlevel, which are the only ones this function touches otherwise.
      (x_level[level] is accessed directly here, i.e. with ax = ab = true.) *)
  Definition SmoothVFromLevel (a : AMGMatrix) (start : nat) (x b res : vec) (res_updated update_res x_zero : bool)
    (w : wspace) : Base.res (vec * vec * wspace) :=
    lv <- rd (am_levels a) start ;;
    let '(x, res) := lv_fw lv x b res res_updated true x_zero in
    w <- set_rhs w (S start) (lv_R lv res) ;;
    w <- (if start + 2 <? n_levels a
          then foldM (pre_level a true true) (seq (start + 1) (n_levels a - 1 - (start + 1))) w else Ret w) ;;
    w <- coarse_level a w ;;
    w <- (if start + 2 <? n_levels a
          then foldM (post_level a true true) (rev (seq (start + 1) (n_levels a - 1 - (start + 1)))) w else Ret w) ;;
    xc <- rd (w_x w) (S start) ;;
    let '(x, res) := lv_bw lv (x +v lv_P lv xc) b res false update_res false in
    Ret (x, res, w).

  (** amg_matrix.cpp:79-85, the middle of the W-cycle: x_l += C2F x_{l+1}; SmoothBack(false,true,false);
      Smooth(true,true,false); rhs_{l+1} = F2C res_l *)
  Definition mid_level (a : AMGMatrix) (ax ab : bool) (w : wspace) (l : nat) : res wspace :=
    lv <- rd (am_levels a) l ;;
    xl <- get_x ax w l ;;
    bl <- get_b ab w l ;;
    rl <- rd (w_res w) l ;;
    xc <- rd (w_x w) (S l) ;;
    let '(x', r') := lv_bw lv (xl +v lv_P lv xc) bl rl false true false in
    let '(x', r') := lv_fw lv x' bl r' true true false in
    w <- set_x ax w l x' ;;
    w <- set_res w l r' ;;
    set_rhs w (S l) (lv_R lv r').
  (** the recursive lambda [smit] of AMGMatrix::SmoothW for a level >= 1, amg_matrix.cpp:70-108;
      [fuel] = n_levels - level - 1, the number of levels below *)
  Fixpoint smit (a : AMGMatrix) (ax ab : bool) (fuel l : nat) (w : wspace) : res wspace :=
    match fuel with
    | S f =>
        w <- pre_level a ax ab w l ;;
        w <- smit a ax ab f (S l) w ;;
        w <- mid_level a ax ab w l ;;
        w <- smit a ax ab f (S l) w ;;
        post_level a ax ab w l
    | O => coarse_level a w
    end.
  (** AMGMatrix::SmoothW, amg_matrix.cpp:42-112: smit(0) first runs a complete V-type step on level 0 (49-69), for any
      n_levels, and then falls through to the regular branch, which starts again from x = 0 *)
  Definition SmoothW (a : AMGMatrix) (ax ab : bool) (w : wspace) : res wspace :=
    let f := n_levels a - 1 in
    w <- pre_level a ax ab w 0 ;;
    w <- smit a ax ab (f - 1) 1 w ;;
    w <- post_level a ax ab w 0 ;;
    smit a ax ab f 0 w.

  (** AMGMatrix::SmoothBS, amg_matrix.cpp:115-187 *)
  Definition bs_pre (a : AMGMatrix) (ax ab : bool) (w : wspace) (l : nat) : res wspace :=
    xl <- get_x ax w l ;;
    bl <- get_b ab w l ;;
    _ <- rd (w_res w) l ;;
    ' p <- SmoothVFromLevel a l (set_zero xl) bl bl true true true w ;;
    let '(x', r', w) := p in
    w <- set_x ax w l x' ;;
    w <- set_res w l r' ;;
    lv <- rd (am_levels a) l ;;
    set_rhs w (S l) (lv_R lv r').
  Definition bs_post (a : AMGMatrix) (ax ab : bool) (w : wspace) (l : nat) : res wspace :=
    lv <- rd (am_levels a) l ;;
    xl <- get_x ax w l ;;
    bl <- get_b ab w l ;;
    rl <- rd (w_res w) l ;;
    xc <- rd (w_x w) (S l) ;;
    ' p <- SmoothVFromLevel a l (xl +v lv_P lv xc) bl rl false false false w ;;
    let '(x', r', w) := p in
    w <- set_x ax w l x' ;;
    set_res w l r'.
  Definition SmoothBS (a : AMGMatrix) (ax ab : bool) (w : wspace) : res wspace :=
    w <- foldM (bs_pre a ax ab) (seq 0 (n_levels a - 1)) w ;;
    w <- coarse_level a w ;;
    foldM (bs_post a ax ab) (rev (seq 0 (n_levels a - 1))) w.

  (** AMGMatrix::Smooth, amg_matrix.hpp:37-43 (any other value of vwb: no case, nothing happens) *)
  Definition Smooth (a : AMGMatrix) (ax ab : bool) (w : wspace) : res wspace :=
    match am_vwb a with
    | 0 => SmoothV a ax ab w
    | 1 => SmoothW a ax ab w
    | 2 => SmoothBS a ax ab w
    | _ => Ret w
    end.

  (** AMGMatrix::Mult (= MultTrans), amg_matrix.cpp:377-384: the user passes his own x and b; result x and workspace *)
  Definition Mult (a : AMGMatrix) (b x : vec) (w : wspace) : res (vec * wspace) :=
    w <- Smooth a false false (mkWS (w_x w) (w_rhs w) (w_res w) x b) ;;
    Ret (w_ux w, w).
  (** AMGMatrix::MultAdd (= MultTransAdd), amg_matrix.cpp:387-395: Smooth(x_level[0], b); x += s x_level[0] *)
  Definition MultAdd (a : AMGMatrix) (s : K B) (b x : vec) (w : wspace) : res (vec * wspace) :=
    w <- Smooth a true false (mkWS (w_x w) (w_rhs w) (w_res w) x b) ;;
    x0 <- rd (w_x w) 0 ;;
    Ret (w_ux w +v vsc s x0, w).

  (** AMGMatrix::CINV, amg_matrix.cpp:410-443.  x and b temporarily replace x_level[0] and rhs_level[0]; the pointers
      are put back at the end. *)
  Definition cinv_down (a : AMGMatrix) (w : wspace) (l : nat) : res wspace :=
    lv <- rd (am_levels a) l ;; bl <- rd (w_rhs w) l ;; set_rhs w (S l) (lv_R lv bl).
  Definition cinv_up (a : AMGMatrix) (w : wspace) (l : nat) : res wspace :=
    lv <- rd (am_levels a) l ;; xc <- rd (w_x w) (S l) ;; set_x true w l (lv_P lv xc).
  Definition CINV (a : AMGMatrix) (x b : vec) (w : wspace) : res (vec * wspace) :=
    tmp <- rd (w_x w) 0 ;; tmp2 <- rd (w_rhs w) 0 ;;
    w <- set_x true w 0 x ;;
    w <- set_rhs w 0 b ;;
    w <- foldM (cinv_down a) (seq 0 (n_levels a - 1)) w ;;
    bc <- rd (w_rhs w) (n_levels a - 1) ;;
    w <- match am_crs a with
         | Some (Some inv) => set_x true w (n_levels a - 1) (inv bc)
         | _ => Err Thrown (* null pointer dereference *)
         end ;;
    w <- foldM (cinv_up a) (rev (seq 0 (n_levels a - 1))) w ;;
    x <- rd (w_x w) 0 ;;
    w <- set_x true w 0 tmp ;;
    w <- set_rhs w 0 tmp2 ;;
    Ret (x, w).

  (** EmbeddedAMGMatrix, amg_matrix.hpp:90-125: optional finest-level smoother [fls], embedding step [ds] *)
  Record EmbeddedAMGMatrix := mkEmb { em_fls : option (smooth_fun B * smooth_fun B); em_clm : AMGMatrix;
                                      em_R : vec -> vec; em_P : vec -> vec }.
  (** EmbeddedAMGMatrix::Mult (= MultTrans), amg_matrix.cpp:600-641; cx, cr are x_level[0], rhs_level[0] of clm;
      without fls always SmoothV is called.  [ws] is the workspace of clm, [er] the vector [res]. *)
  Definition EmbMult (e : EmbeddedAMGMatrix) (b x er : vec) (w : wspace) : res (vec * vec * wspace) :=
    match em_fls e with
    | Some (fw, bw) =>
        let '(x, er) := fw (set_zero x) b b true true true in
        w <- set_rhs w 0 (em_R e er) ;;
        w <- Smooth (em_clm e) true true w ;;
        cx <- rd (w_x w) 0 ;;
        let '(x, er) := bw (x +v em_P e cx) b er false false false in
        Ret (x, er, w)
    | None =>
        w <- set_rhs w 0 (em_R e b) ;;
        w <- SmoothV (em_clm e) true true w ;;
        cx <- rd (w_x w) 0 ;;
        Ret (em_P e cx, er, w)
    end.
  (** EmbeddedAMGMatrix::MultAdd, amg_matrix.cpp:650-654; [xbuf] *)
  Definition EmbMultAdd (e : EmbeddedAMGMatrix) (s : K B) (b x xbuf er : vec) (w : wspace) : res (vec * vec * vec * wspace) :=
    ' p <- EmbMult e b xbuf er w ;;
    let '(xbuf, er, w) := p in
    Ret (x +v vsc s xbuf, xbuf, er, w).

  (** AMGSmoother, amg_matrix.cpp:690-788.  GetSmoother(start_level) is null from start_level = smoothers.Size() on
      (null dereference: Err).  [haveNextLevel] is NLevels > start_level. *)
  Record AMGSmoother := mkAS { as_amg : AMGMatrix; as_start : nat; as_single : bool }.
  Definition as_smooth (s : AMGSmoother) (x b res : vec) (res_updated update_res x_zero : bool) (w : wspace)
    : Base.res (vec * vec * wspace) :=
    let a := as_amg s in let st := as_start s in
    if as_single s then
      lv <- rd (am_levels a) st ;;
      let res := if res_updated then res else calc_residuum (lv_A lv) x b x_zero in
      if st <? n_levels a then
        w <- set_rhs w (S st) (lv_R lv res) ;;
        xc <- rd (w_x w) (S st) ;;
        bc <- rd (w_rhs w) (S st) ;;
        rc <- rd (w_res w) (S st) ;;
        ' p <- SmoothVFromLevel a (S st) (set_zero xc) bc rc false false true w ;;
        let '(xc, rc, w) := p in
        w <- set_x true w (S st) xc ;;
        w <- set_res w (S st) rc ;;
        let '(x, res) := lv_fw lv (x +v lv_P lv xc) b res false update_res false in
        Ret (x, res, w)
      else Err OutOfBounds
    else SmoothVFromLevel a st x b res res_updated update_res x_zero w.
  (** 744-788; note bC = res_level[start+1], resC = rhs_level[start+1] *)
  Definition as_smooth_back (s : AMGSmoother) (x b res : vec) (res_updated update_res x_zero : bool) (w : wspace)
    : Base.res (vec * vec * wspace) :=
    let a := as_amg s in let st := as_start s in
    if as_single s then
      lv <- rd (am_levels a) st ;;
      let '(x, res) := lv_bw lv x b res res_updated true x_zero in
      if st <? n_levels a then
        w <- set_res w (S st) (lv_R lv res) ;;
        xc <- rd (w_x w) (S st) ;;
        bc <- rd (w_res w) (S st) ;;
        rc <- rd (w_rhs w) (S st) ;;
        ' p <- SmoothVFromLevel a (S st) (set_zero xc) bc rc false false true w ;;
        let '(xc, rc, w) := p in
        w <- set_x true w (S st) xc ;;
        w <- set_rhs w (S st) rc ;;
        let x := x +v lv_P lv xc in
        Ret (x, if update_res then calc_residuum (lv_A lv) x b false else res, w)
      else Err OutOfBounds
    else SmoothVFromLevel a st x b res res_updated update_res x_zero w.
End Model.
Arguments AMGMatrix B : clear implicits. Arguments level B : clear implicits. Arguments wspace B : clear implicits.
Arguments EmbeddedAMGMatrix B : clear implicits. Arguments AMGSmoother B : clear implicits.
