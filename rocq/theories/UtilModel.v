(** Models of small utilities:
    tuple comparisons (/repo/src/base/utils/utils.hpp:38-60), lexicographic array comparison
    (/repo/src/base/utils/utils_arrays_tables.hpp:10-21), level dependent options (/repo/src/base/utils/SpecOpt.hpp),
    block filtering of the parallel block smoother (/repo/src/base/smoothers/block_gssmoother.cpp:525-535, 593-664),
    buffer packing (/repo/src/base/utils/utils_buffering.hpp, /repo/src/elasticity/elasticity_mesh.hpp:11-81),
    basis functions (/repo/src/base/solve/amg_matrix.cpp:438-510). *)
From Verif Require Import Base.
From Coq Require Import ZArith.

(** *** tuples; [ltb] is operator< of the element type *)
Section Tuple.
  Context {T : Type} (ltb : T -> T -> bool).
  (** utils.hpp:38-41 *)
  Definition iv2_lt (a b : T * T) : bool :=
    let '(a0, a1) := a in let '(b0, b1) := b in
    if ltb a0 b0 then true else if ltb b0 a0 then false else ltb a1 b1.
  (** utils.hpp:42-46 *)
  Definition iv3_lt (a b : T * T * T) : bool :=
    let '(a0, a1, a2) := a in let '(b0, b1, b2) := b in
    if ltb a0 b0 then true else if ltb b0 a0 then false
    else if ltb a1 b1 then true else if ltb b1 a1 then false else ltb a2 b2.
  (** utils.hpp:47-52: the right operand is an IVec<3>, b[3] is outside of it *)
  Definition iv4_lt (a : T * T * T * T) (b : T * T * T) : res bool :=
    let '(a0, a1, a2, a3) := a in let '(b0, b1, b2) := b in
    if ltb a0 b0 then Ret true else if ltb b0 a0 then Ret false
    else if ltb a1 b1 then Ret true else if ltb b1 a1 then Ret false
    else if ltb a2 b2 then Ret true else if ltb b2 a2 then Ret false else Err OutOfBounds.
  (** utils.hpp:53-59: the second test of the fourth component reads the third one *)
  Definition iv5_lt (a b : T * T * T * T * T) : bool :=
    let '(a0, a1, a2, a3, a4) := a in let '(b0, b1, b2, b3, b4) := b in
    if ltb a0 b0 then true else if ltb b0 a0 then false
    else if ltb a1 b1 then true else if ltb b1 a1 then false
    else if ltb a2 b2 then true else if ltb b2 a2 then false
    else if ltb a3 b3 then true else if ltb b2 a2 then false else ltb a4 b4.
  (** lex_smaller, utils_arrays_tables.hpp:9-21; [neqb] is operator!= *)
  Fixpoint lex_loop (neqb : T -> T -> bool) (a b : list T) (dflt : bool) : bool :=
    match a, b with
    | x :: a, y :: b => if ltb x y then true else if neqb x y then false else lex_loop neqb a b dflt
    | _, _ => dflt
    end.
  Definition lex_smaller (neqb : T -> T -> bool) (a b : list T) : bool :=
    if length a =? length b then lex_loop neqb a b (length a <? length b) else length a <? length b.
End Tuple.

(** *** SpecOpt, SpecOpt.hpp:16-83; the default is None while it is indeterminate *)
Section SpecOpt.
  Context {OC : Type}.
  Record specopt := mkSO { so_default : option OC; so_spec : list OC }.
  Definition so_new : specopt := mkSO None [].                                          (* :22 *)
  Definition so_of (d : OC) : specopt := mkSO (Some d) [].                              (* :23 *)
  Definition so_of2 (d : OC) (sp : list OC) : specopt := mkSO (Some d) sp.              (* :24-25 *)
  (** copy constructor :26: default_opt(default_opt) initialises the member with itself *)
  Definition so_copy (o : specopt) : specopt := mkSO None (so_spec o).
  Definition so_move (o : specopt) : specopt := mkSO (so_default o) (so_spec o).        (* :27 *)
  Definition so_assign_val (d : OC) (o : specopt) : specopt := mkSO (Some d) [].        (* :34-38 *)
  Definition so_assign (this other : specopt) : specopt := mkSO (so_default other) (so_spec other).  (* :40-45 *)
  (** GetOpt :64; level is an int, Size() a size_t: the comparison is done in unsigned 64 bit arithmetic *)
  Definition so_get (o : specopt) (level : Z) : res OC :=
    if (level mod 2 ^ 64 <? Z.of_nat (length (so_spec o)))%Z then rd (so_spec o) (Z.to_nat level)
    else match so_default o with Some d => Ret d | None => Err Uninit end.
  (** SetFromFlagsEnum :47-59; [str] = value of the flag ("" if absent), [strs] = value of the list flag (empty if absent) *)
  Fixpoint enum_pos (Str : Type) (eqb : Str -> Str -> bool) (keys : list Str) (v : Str) : option nat :=
    match keys with [] => None | k :: ks => if eqb k v then Some 0 else option_map S (enum_pos Str eqb ks v) end.
  Definition so_setoc (Str : Type) (eqb : Str -> Str -> bool) (keys : list Str) (vals : list OC) (oc : option OC) (v : Str) : res (option OC) :=
    match enum_pos Str eqb keys v with Some i => x <- rd vals i ;; Ret (Some x) | None => Ret oc end.
  Definition so_set_enum (Str : Type) (eqb : Str -> Str -> bool) (keys : list Str) (vals : list OC) (str : Str) (strs : list Str) (o : specopt) : res specopt :=
    d <- so_setoc Str eqb keys vals (so_default o) str ;;
    match d with
    | None => match strs with [] => Ret (mkSO None []) | _ => Err Uninit end
    | Some dv => sp <- foldM (fun acc s => x <- so_setoc Str eqb keys vals (Some dv) s ;; match x with Some x => Ret (acc ++ [x]) | None => Err Uninit end) strs [] ;;
                 Ret (mkSO (Some dv) sp)
    end.
  (** SetFromFlags for double, int, string :115-144: [conv] is the conversion of the list entries to OC *)
  Definition so_set_flags (A : Type) (conv : A -> OC) (flag : option A) (lst : list A) (o : specopt) : specopt :=
    mkSO (match flag with Some v => Some (conv v) | None => so_default o end) (map conv lst).
End SpecOpt.
Arguments specopt : clear implicits.
(** three-valued flag, ngcore::xbool *)
Inductive xbool := XFalse | XTrue | XMaybe.
(** SpecOpt<bool>::SetFromFlags :92-101; [lst]: whether the entries of the list flag are non-zero *)
Definition so_set_bool (flag : xbool) (lst : list bool) (o : specopt bool) : res (specopt bool) :=
  match so_default o with
  | None => Err Uninit
  | Some d => Ret (mkSO (Some (if d then match flag with XFalse => false | _ => true end else match flag with XTrue => true | _ => false end)) lst)
  end.
(** operator|= for bool :66-77 *)
Definition so_or (a b : specopt bool) : res (specopt bool) :=
  match so_default a, so_default b with
  | Some da, Some db =>
      let n := Nat.min (length (so_spec a)) (length (so_spec b)) in
      let sp := map (fun k => nth k (so_spec a) false || nth k (so_spec b) false) (seq 0 n) ++ skipn n (so_spec a) in
      let sp := if length (so_spec b) <? length (so_spec a)
                then firstn (length (so_spec b)) sp ++ map (fun x => x || db) (skipn (length (so_spec b)) sp) else sp in
      Ret (mkSO (Some (da || db)) sp)
  | _, _ => Err Uninit
  end.

(** *** HybridBS::FilterBlocks, block_gssmoother.cpp:593-664; [master] = GetMasterDOFs()->Test, [shared] = GetDistantProcs(dof).Size() > 0 *)
Section Filter.
  Variables (master shared : nat -> bool).
  (** iterate_blocks :611-634: (fb, isloc) of every block with a master dof *)
  Definition filtered (blocks : list (list nat)) : list (list nat * bool) :=
    concat (map (fun block => let fb := filter master block in
                              if 0 <? length fb then [(fb, negb (existsb shared fb))] else []) blocks).
  (** TableCreator::Add(k, row): the last pass *)
  Definition tab_add (t : list (list nat)) (k : nat) (r : list nat) : res (list (list nat)) := old <- rd t k ;; wr t k (old ++ r).
  (** :643-657, state (cl1, cl2, cex, cnt_loc1, cnt_loc2, cnt_ex) *)
  Definition filter_step (symm_loc : bool) (nl1 : nat) (s : (list (list nat) * list (list nat) * list (list nat)) * (nat * nat * nat)) (e : list nat * bool)
    : res ((list (list nat) * list (list nat) * list (list nat)) * (nat * nat * nat)) :=
    let '((cl1, cl2, cex), (c1, c2, cx)) := s in
    if snd e then
      if symm_loc || (c1 <? nl1) then t <- tab_add cl1 c1 (fst e) ;; Ret ((t, cl2, cex), (S c1, c2, cx))
      else t <- tab_add cl2 c2 (fst e) ;; Ret ((cl1, t, cex), (c1, S c2, cx))
    else t <- tab_add cex cx (fst e) ;; Ret ((cl1, cl2, t), (c1, c2, S cx)).
  Definition FilterBlocks (symm_loc : bool) (blocks : list (list nat)) : res (list (list (list nat))) :=
    let fl := filtered blocks in
    let cnt_loc := length (filter snd fl) in
    let cnt_ex := length (filter (fun e => negb (snd e)) fl) in
    let nl1 := if symm_loc then cnt_loc else Nat.div cnt_loc 2 in
    let nl2 := cnt_loc - nl1 in
    ' s <- foldM (filter_step symm_loc nl1) fl ((repeat [] nl1, repeat [] nl2, repeat [] cnt_ex), (0, 0, 0)) ;;
    let '(cl1, cl2, cex) := fst s in
    Ret (if symm_loc then [cl1; cex] else [cl1; cex; cl2]).
  (** HybridBS constructor :525-535 *)
  Definition hybrid_blocks (symm_loc : bool) (comm_size : nat) (rank_zero_idle : bool) (blocks : list (list nat)) : res (list (list (list nat))) :=
    if (if rank_zero_idle then 1 else 2) <? comm_size then FilterBlocks symm_loc blocks else Ret [blocks; []; []].
End Filter.

(** *** buffers: arrays of doubles *)
Section Buffer.
  Context {D : Type}.
  Inductive bty := TDouble | TVec (n : nat) | TMat (n : nat) | TIVec (n : nat) | TElast (dim : nat).
  Inductive bval := BDouble (x : D) | BVec (v : list D) | BMat (m : list (list D)) | BElast (rot : D) (pos : list D) (wt : list (list D)).
  (** ETM_TRAIT, elasticity_mesh.hpp:11-13: Mat<3,3> for DIM 2, Mat<6,6> for DIM 3 *)
  Definition etm (dim : nat) : nat := if dim =? 2 then 3 else 6.
  (** SIZE_IN_BUFFER, utils_buffering.hpp:12,28,46,74 and elasticity_mesh.hpp:25,59 *)
  Definition size_in_buffer (t : bty) : nat :=
    match t with TDouble => 1 | TVec n => n | TMat n => n * n | TIVec n => n | TElast dim => 1 + dim + dim * dim end.
  (** the data have the shape of their type *)
  Definition shaped (t : bty) (v : bval) : Prop :=
    match t, v with
    | TDouble, BDouble _ => True
    | TVec n, BVec l | TIVec n, BVec l => length l = n
    | TMat n, BMat m => length m = n /\ forall r, In r m -> length r = n
    | TElast dim, BElast _ pos wt => length pos = dim /\ length wt = etm dim /\ forall r, In r wt -> length r = etm dim
    | _, _ => False end.
  (** buf[off + i] = v[i], i = 0..  *)
  Definition put (buf : list D) (off : nat) (v : list D) : res (list D) := foldM (fun b p => wr b (off + fst p) (snd p)) (combine (seq 0 (length v)) v) buf.
  (** buf[off + i * n + j] = m(i,j) *)
  Definition put_mat (buf : list D) (off n : nat) (m : list (list D)) : res (list D) :=
    foldM (fun b p => foldM (fun b q => wr b (off + (fst p * n + fst q)) (snd q)) (combine (seq 0 n) (snd p)) b) (combine (seq 0 n) m) buf.
  (** PackIntoBuffer: new buffer and return value; for ElastVData the running offset is the sum of the return values *)
  Definition pack (t : bty) (v : bval) (buf : list D) (off : nat) : res (list D * nat) :=
    match t, v with
    | TDouble, BDouble x => b <- put buf off [x] ;; Ret (b, size_in_buffer t)
    | TVec n, BVec l | TIVec n, BVec l => b <- put buf off l ;; Ret (b, size_in_buffer t)
    | TMat n, BMat m => b <- put_mat buf off n m ;; Ret (b, size_in_buffer t)
    | TElast dim, BElast rot pos wt =>
        b <- put buf off [rot] ;; b <- put b (off + 1) pos ;; b <- put_mat b (off + 1 + dim) (etm dim) wt ;; Ret (b, size_in_buffer t)
    | _, _ => Err Thrown
    end.
  Definition get (buf : list D) (off n : nat) : res (list D) := foldM (fun acc i => x <- rd buf (off + i) ;; Ret (acc ++ [x])) (seq 0 n) [].
  Definition get_mat (buf : list D) (off n : nat) : res (list (list D)) := foldM (fun acc i => r <- get buf (off + i * n) n ;; Ret (acc ++ [r])) (seq 0 n) [].
  (** UnpackFromBuffer *)
  Definition unpack (t : bty) (buf : list D) (off : nat) : res (bval * nat) :=
    match t with
    | TDouble => x <- rd buf off ;; Ret (BDouble x, size_in_buffer t)
    | TVec n | TIVec n => l <- get buf off n ;; Ret (BVec l, size_in_buffer t)
    | TMat n => m <- get_mat buf off n ;; Ret (BMat m, size_in_buffer t)
    | TElast dim => x <- rd buf off ;; p <- get buf (off + 1) dim ;; m <- get_mat buf (off + 1 + dim) (etm dim) ;; Ret (BElast x p m, size_in_buffer t)
    end.
  (** a message: c += PackIntoBuffer(item, buf + c) for all items; the same for unpacking *)
  Definition pack_all (items : list (bty * bval)) (buf : list D) (off : nat) : res (list D * nat) :=
    foldM (fun s it => ' p <- pack (fst it) (snd it) (fst s) (snd s) ;; Ret (fst p, snd s + snd p)) items (buf, off).
  Definition unpack_all (ts : list bty) (buf : list D) (off : nat) : res (list bval * nat) :=
    foldM (fun s t => ' p <- unpack t buf (snd s) ;; Ret (fst s ++ [fst p], snd s + snd p)) ts ([], off).
End Buffer.
Arguments bval : clear implicits.

(** *** AMGMatrix::GetBF, amg_matrix.cpp:438-510 *)
Section GetBF.
  Local Open Scope Z_scope.
  (** what rank r knows about the level: None if it does not take part (IsValid() false); otherwise GetBS(), GetND(), GetGlobDNums(level) *)
  Record levdofs := mkLev { lv_bs : Z; lv_nd : nat; lv_gdn : list Z }.
  (** the check of rank [r], :457-470 *)
  Definition bf_check (r size : Z) (lev : option levdofs) (ndglob dof comp arank : Z) : Z :=
    let e := if (arank <? 0) || (size <? arank) then 1 else 0 in
    let e := match lev with Some l => if lv_bs l <? comp then 2 else e | None => e end in
    let e := match lev with None => if r =? arank then 3 else e | Some _ => e end in
    match lev with
    | Some l => let e := if (r =? arank) && (0 <? r) && (Z.of_nat (lv_nd l) <? dof) then 4 else e in
                if (arank =? 0) && (ndglob <? dof) then 5 else e
    | None => e
    end.
  (** AllReduce(MAX), :470 *)
  Definition bf_status (levs : list (option levdofs)) (ndglob dof comp arank : Z) : Z :=
    fold_left Z.max (map (fun r => bf_check (Z.of_nat r) (Z.of_nat (length levs)) (nth r levs None) ndglob dof comp arank) (seq 0 (length levs))) 0.
  (** FVDouble()[i] = 1.0 *)
  Definition setone (v : list Z) (i : Z) : res (list Z) := if i <? 0 then Err OutOfBounds else wr v (Z.to_nat i) 1.
  (** what rank r does: None = return with vec == 0; otherwise the vector on the level before it is cumulated and prolongated, :487-508.
      The entries are 0 and 1. *)
  Definition bf_rank (levs : list (option levdofs)) (ndglob dof comp arank : Z) (r : nat) : res (option (list Z)) :=
    if negb (bf_status levs ndglob dof comp arank =? 0) && (r =? 0)%nat then Ret None else
    match nth r levs None with
    | None => Ret (Some [])
    | Some l =>
        let v := repeat 0 (Z.to_nat (lv_bs l) * lv_nd l) in
        if (length levs =? 1)%nat || (0 <? arank) then
          if Z.of_nat r =? arank then v <- setone v (lv_bs l * dof + comp) ;; Ret (Some v) else Ret (Some v)
        else
          v <- foldM (fun v k => g <- rd (lv_gdn l) k ;; if g =? dof then setone v (lv_bs l * Z.of_nat k + comp) else Ret v) (seq 0 (lv_nd l)) v ;; Ret (Some v)
    end.
End GetBF.
