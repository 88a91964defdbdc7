(** Model of the block smoother BSmoother2 with precomputed block rows,
    /repo/src/base/smoothers/loc_block_gssmoother.{hpp,cpp} and loc_block_gssmoother_impl.hpp.
    Simplifications: the flat buffers of GetAllocSize / Alloc are not modelled, every block owns its lists (firsti / cols / vals
    become one list of rows for the "L" and one for the "U" part); omega is 1.0 as in every call, so
    (1-omega)*x + omega*s is s; the loops over the blocks run in one thread as in the code (IterateBlocks is serial);
    res = b - A*x is NGSolve's  res = b; A.MultAdd(-1,x,res). *)
From Verif Require Import Base AGroup LinAlg LinTools GSModel Shm BlockModel.
Open Scope nat_scope.

Section Model.
  Context {B : Blk}.
  Local Notation X := (X B). Local Notation M := (M B). Local Notation K := (K B).
  Local Notation vec := (list X).
  (** BSBlock, loc_block_gssmoother.hpp:20-30 *)
  Record b2blk := mkB2 { b2_dofs : list nat; b2_L : list (@row B); b2_U : list (@row B); b2_diag : @dense B; b2_inv : @dense B }.

  Definition mem_nat (i : nat) (l : list nat) : bool := existsb (Nat.eqb i) l.

  (** SetFromSPMat, _impl.hpp:64-128: diag from A, diag_inv with md on the diagonal, all other columns in one list of rows *)
  Definition set_from (minv : @dense B -> @dense B) (A : @spmat B) (md : list M) (dofs : list nat) : b2blk :=
    let dofnrs := sort_nat dofs in
    mkB2 dofnrs (map (fun d => filter (fun p => negb (mem_nat (fst p) dofnrs)) (getrow A d)) dofnrs) (map (fun _ => []) dofnrs)
         (diag_block A [] dofnrs) (minv (diag_block A md dofnrs)).
  (** SetLUFromSPMat, _impl.hpp:131-219: columns of earlier blocks (or of no block: d2blk = -1) go to L, of later ones to U;
      [d2blk] maps a dof to its block, None is -1 *)
  Definition in_L (d2blk : nat -> option nat) (nr col : nat) : bool := match d2blk col with None => true | Some k => k <? nr end.
  Definition in_U (d2blk : nat -> option nat) (nr col : nat) : bool := match d2blk col with None => false | Some k => nr <? k end.
  Definition set_lu (minv : @dense B -> @dense B) (A : @spmat B) (d2blk : nat -> option nat) (nr : nat) (dofs : list nat) : b2blk :=
    let dofnrs := sort_nat dofs in
    mkB2 dofnrs (map (fun d => filter (fun p => in_L d2blk nr (fst p)) (getrow A d)) dofnrs)
         (map (fun d => filter (fun p => in_U d2blk nr (fst p)) (getrow A d)) dofnrs)
         (diag_block A [] dofnrs) (minv (diag_block A [] dofnrs)).

  (** dof2block, loc_block_gssmoother.cpp:112-131 *)
  Definition d2b_step (nr : nat) (t : res (list (option nat))) (dof : nat) : res (list (option nat)) :=
    t <- t ;; o <- rd t dof ;; match o with Some _ => Err Thrown | None => wr t dof (Some nr) end.
  Definition dof2block (n : nat) (blocks : list (list nat)) : res (list (option nat)) :=
    fold_left (fun t p => fold_left (d2b_step (fst p)) (snd p) t) (combine (seq 0 (length blocks)) blocks) (Ret (repeat None n)).

  (** BSmoother2, loc_block_gssmoother.hpp:83-103; [s2_groups] = number of blocks of every group *)
  Record BS2 := mkBS2 { s2_blocks : list b2blk; s2_groups : list nat; s2_no : bool }.

  (** SetUp, loc_block_gssmoother.cpp:40-157 *)
  Definition bs2_make (minv : @dense B -> @dense B) (A : @spmat B) (groups : list (list (list nat))) (blocks_no : bool) (md : list M) : res BS2 :=
    let blocks := concat groups in
    if blocks_no then
      t <- dof2block (length A) blocks ;;
      if negb (length md =? 0) && negb (length blocks =? 0) then Err Thrown
      else Ret (mkBS2 (map (fun p => set_lu minv A (fun i => nth i t None) (fst p) (snd p)) (combine (seq 0 (length blocks)) blocks))
                      (map (@length _) groups) true)
    else Ret (mkBS2 (map (set_from minv A md) blocks) (map (@length _) groups) false).

  (** *** block operations *)
  Definition mvrows (rs : list (@row B)) (x : vec) : vec := map (fun r => row_times r x) rs.
  (** x(dofnrs) = v *)
  Definition assign (dofs : list nat) (v x : vec) : vec := fold_left (fun x p => upd x (fst p) (snd p)) (combine dofs v) x.
  (** y(cols[l]) -= vals[l] * w(k): the block is NOT transposed *)
  Definition sub_plain (rs : list (@row B)) (w y : vec) : vec :=
    fold_left (fun y p => fold_left (fun y q => vinc y (fst q) (xopp (act (snd q) (snd p)))) (fst p) y) (combine rs w) y.
  (** y(cols[l]) -= Trans(vals[l]) * w(k) *)
  Definition sub_trans (rs : list (@row B)) (w y : vec) : vec :=
    fold_left (fun y p => add_row_trans (fst p) (xopp (snd p)) y) (combine rs w) y.

  (** RichardsonUpdate, _impl.hpp:236-258 *)
  Definition rupd (k : b2blk) (b x : vec) : vec :=
    let small := (gather (b2_dofs k) b -v mvrows (b2_L k) x) -v mvrows (b2_U k) x in
    let small := small -v dmul (b2_diag k) (gather (b2_dofs k) x) in
    scatter (b2_dofs k) (dmul (b2_inv k) small) x.
  (** RichardsonUpdate_FW_zig, :261-274 *)
  Definition rupd_FW_zig (k : b2blk) (b x : vec) : vec :=
    assign (b2_dofs k) (dmul (b2_inv k) (gather (b2_dofs k) b -v mvrows (b2_L k) x)) x.
  (** RichardsonUpdate_BW_zig, :277-298 *)
  Definition rupd_BW_zig (k : b2blk) (b x : vec) : vec :=
    assign (b2_dofs k) (dmul (b2_inv k) (gather (b2_dofs k) b -v mvrows (b2_U k) x)) x.
  (** RichardsonUpdate_FW_zig_saveU, :301-326; state (x, res) *)
  Definition rupd_FW_zig_saveU (k : b2blk) (b : vec) (s : vec * vec) : vec * vec :=
    let (x, res) := s in
    let sol := dmul (b2_inv k) (gather (b2_dofs k) b -v mvrows (b2_L k) x) in
    (assign (b2_dofs k) sol x, sub_plain (b2_L k) sol (assign (b2_dofs k) (map (fun _ => x0) (b2_dofs k)) res)).
  (** RichardsonUpdate_BW_zig_saveL, :352-378: for every k the range is firsti[nds]..firsti[nds+1], the U part of row 0 *)
  Definition rupd_BW_zig_saveL (k : b2blk) (b : vec) (s : vec * vec) : vec * vec :=
    let (x, res) := s in
    let sol := dmul (b2_inv k) (gather (b2_dofs k) b -v mvrows (b2_U k) x) in
    (assign (b2_dofs k) sol x,
     sub_plain (map (fun _ => nth 0 (b2_U k) []) (b2_dofs k)) sol (assign (b2_dofs k) (map (fun _ => x0) (b2_dofs k)) res)).
  (** RichardsonUpdate_saveU :381-411 / _saveL :414-444 *)
  Definition rupd_save (upper : bool) (k : b2blk) (b : vec) (s : vec * vec) : vec * vec :=
    let (x, res) := s in
    let new := dmul (b2_inv k) ((gather (b2_dofs k) b -v mvrows (b2_L k) x) -v mvrows (b2_U k) x) in
    let sol := new -v gather (b2_dofs k) x in
    (assign (b2_dofs k) new x,
     sub_plain (if upper then b2_L k else b2_U k) sol (assign (b2_dofs k) (map (fun _ => x0) (b2_dofs k)) res)).
  (** RichardsonUpdate_RES, :514-541 *)
  Definition rupd_RES (k : b2blk) (s : vec * vec) : vec * vec :=
    let (x, res) := s in
    let up := dmul (b2_inv k) (gather (b2_dofs k) res) in
    let res := sub_trans (b2_U k) up (sub_trans (b2_L k) up res) in
    (scatter (b2_dofs k) up x, scatter (b2_dofs k) (map xopp (dmul (b2_diag k) up)) res).
  (** MultAdd, :544-556 *)
  Definition b2_multadd (k : b2blk) (s : K) (b x : vec) : vec :=
    scatter (b2_dofs k) (vsc s (dmul (b2_inv k) (gather (b2_dofs k) b))) x.
  (** MultAdd_mat with scal = -1, :571-588 *)
  Definition b2_sub_mat (k : b2blk) (x y : vec) : vec :=
    scatter (b2_dofs k) (map xopp (dmul (b2_diag k) (gather (b2_dofs k) x)))
      (scatter (b2_dofs k) (map xopp (mvrows (b2_U k) x)) (scatter (b2_dofs k) (map xopp (mvrows (b2_L k) x)) y)).

  (** IterateBlocks, :614-646: the block numbers in the order in which they are visited *)
  Definition grp_range (g : list nat) (k : nat) : list nat := seq (list_sum (firstn k g)) (nth k g 0).
  Definition b2_order (S : BS2) (groups : list nat) (reverse : bool) : list nat :=
    let sg := length groups in
    concat (map (fun k => if reverse then rev (grp_range (s2_groups S) (nth (sg - 1) groups 0 - k))
                          else grp_range (s2_groups S) (nth k groups 0)) (seq 0 sg)).
  Definition b2_at (S : BS2) (k : nat) : b2blk := nth k (s2_blocks S) (mkB2 [] [] [] [] []).
  Definition b2_fold {T} (S : BS2) (groups : list nat) (reverse : bool) (f : b2blk -> T -> T) (t : T) : T :=
    fold_left (fun t k => f (b2_at S k) t) (b2_order S groups reverse) t.
  (** allgroups, loc_block_gssmoother.cpp:66-68 *)
  Definition allgroups (S : BS2) : list nat := seq 0 (length (s2_groups S)).
  (** res = b - (GetAMatrix()) * x; MultAdd_Sysmat, loc_block_gssmoother.cpp:294-320 *)
  Definition b2_residual (S : BS2) (x b : vec) : vec :=
    fold_left (fun y k => b2_sub_mat k x y) (s2_blocks S) b.

  (** SmoothWO / SmoothSimple / SmoothRESSimple, _impl.hpp:649-701 *)
  Definition smoothWO (S : BS2) (groups : list nat) (steps : nat) (reverse symm : bool) : @smooth_fun B :=
    fun x b res res_updated update_res x_zero =>
      if res_updated && update_res then
        Nat.iter steps (fun s => let s := b2_fold S groups reverse rupd_RES s in
                                 if symm then b2_fold S groups (negb reverse) rupd_RES s else s) (x, res)
      else
        let x := Nat.iter steps (fun x => let x := b2_fold S groups reverse (fun k => rupd k b) x in
                                          if symm then b2_fold S groups (negb reverse) (fun k => rupd k b) x else x) x in
        (x, if update_res then b2_residual S x b else res).

  (** Smooth, :746-772; zig only in the first step *)
  Fixpoint smooth2 (S : BS2) (groups : list nat) (steps : nat) (zig reverse : bool) (x b : vec) : vec :=
    match steps with
    | 0 => x
    | Datatypes.S steps =>
        let x := b2_fold S groups reverse (fun k => if zig then if reverse then rupd_FW_zig k b else rupd_BW_zig k b
                                                   else rupd k b) x in
        smooth2 S groups steps false reverse x b
    end.
  (** Smooth_CR, :777-803 *)
  Fixpoint smooth2_CR (S : BS2) (groups : list nat) (steps : nat) (zig reverse : bool) (x b res : vec) : vec * vec :=
    match steps with
    | 0 => (x, res)
    | Datatypes.S steps =>
        let s := b2_fold S groups reverse (fun k => if zig then if reverse then rupd_BW_zig_saveL k b else rupd_FW_zig_saveU k b
                                                    else rupd_save (negb reverse) k b) (x, res) in
        smooth2_CR S groups steps false reverse (fst s) b (snd s)
    end.
  (** SmoothNO with symm = false, :704-743; [upd0] is the content of the work vector "update", which is only cleared in one branch *)
  Definition smoothNO (S : BS2) (upd0 : vec) (groups : list nat) (steps : nat) (reverse : bool) : @smooth_fun B :=
    fun x b res res_updated update_res x_zero =>
      if res_updated then
        if update_res then let s := smooth2_CR S groups steps true reverse upd0 res res in (x +v fst s, snd s)
        else (x +v smooth2 S groups steps false reverse (vzero (length upd0)) res, res)
      else
        let x := smooth2 S groups steps x_zero reverse x b in
        (x, if update_res then b2_residual S x b else res).

  (** Smooth / SmoothBack and the K-step versions, loc_block_gssmoother.cpp:161-222 *)
  Definition bs2_smooth (S : BS2) (upd0 : vec) (steps : nat) (back : bool) : @smooth_fun B :=
    if s2_no S then smoothNO S upd0 (allgroups S) steps back else smoothWO S (allgroups S) steps back false.
  (** SmoothGroups, :226-236 (symm = false): "true" is passed instead of reverse *)
  Definition bs2_smooth_groups (S : BS2) (upd0 : vec) (groups : list nat) (steps : nat) (reverse : bool) : @smooth_fun B :=
    if s2_no S then smoothNO S upd0 groups steps true else smoothWO S groups steps true false.
End Model.
Arguments b2blk : clear implicits.
Arguments BS2 : clear implicits.
