(** Redistribution of the additional data of a Stokes mesh.
    Models /repo/src/stokes/common/stokes_map_impl.hpp:14-46 (RemoveDuplicates) and :826-1140 (StokesContractMap::MapAdditionalData).
    Simplifications: a TableCreator is the list of rows it ends with; QuickSort is insertion sort (integers: same result);
    the message of a member arrives as it was packed; the summing up of the flip marks over processes (AllreduceNodalData),
    the change of sign of the edge flow and the marks of active loops are not modelled. *)
From Verif Require Import Base ArraysModel LoopModel SMapModel SMeshModel.
Open Scope Z_scope.
Import ListNotations.

(** *** RemoveDuplicates, :14-46 *)
Fixpoint qins (x : Z) (l : list Z) : list Z := match l with [] => [x] | y :: l' => if x <=? y then x :: l else y :: qins x l' end.
Definition quicksort (l : list Z) : list Z := fold_right qins [] l.
Fixpoint ndups (l : list Z) : nat := match l with x :: ((y :: _) as l') => ((if Z.eqb y x then 1 else 0) + ndups l')%nat | _ => O end.
Definition dedup_entry (st : nat * list Z) (x : Z) : res (nat * list Z) :=
  let '(c, out) := st in
  y <- rd out c ;; if x =? y then Ret (c, out) else out' <- wr out (S c) x ;; Ret (S c, out').
Definition dedup_row (row : list Z) : res (list Z) :=
  let row := if (length row <? 2)%nat then row else quicksort row in
  let perow := if (length row <? 2)%nat then length row else (length row - ndups row)%nat in
  let out := repeat 0 perow in
  match row with
  | [] => Ret out
  | x :: rest => out <- wr out 0 x ;; if (length row <? 2)%nat then Ret out else ' (_, out) <- foldM dedup_entry rest (O, out) ;; Ret out
  end.
Definition RemoveDuplicates (t : list (list Z)) : res (list (list Z)) := mapM dedup_row t.

(** *** messages *)
Fixpoint index_from (n : nat) (t : list (list Z)) : list Z := Z.of_nat n :: match t with [] => [] | row :: t' => index_from (n + length row) t' end.
(** pack_table, :860-868: number of rows, index array, entries *)
Definition pack_table (t : list (list Z)) : list Z := Z.of_nat (length t) :: index_from 0 t ++ concat t.
(** unpack_table, :870-880: (entries used, index entries used, table); [cap]: size of fi_buffer *)
Definition unpack_table (msg : list Z) (cap : nat) : res (nat * nat * list (list Z)) :=
  nrows <- rd msg 0 ;;
  if (nrows <? 0) || (cap <? S (Z.to_nat nrows))%nat then Err OutOfBounds else
  fi <- part msg 1 (nrows + 1) ;;
  let cnt := (1 + S (Z.to_nat nrows))%nat in
  tot <- rdz fi nrows ;;
  t <- mapM (fun k => a <- rd fi k ;; b <- rd fi (S k) ;; if a <? 0 then Err OutOfBounds else part msg (cnt + Z.to_nat a) (b - a)) (seq 0 (Z.to_nat nrows)) ;;
  if tot <? 0 then Err OutOfBounds else
  Ret ((cnt + Z.to_nat tot)%nat, S (Z.to_nat nrows), t).
(** what one member sends *)
Record memd := mkMd {
  d_gn : list Z;                 (* f_loop_globnums *)
  d_loops : list (list Z);
  d_dps : list (list Z);         (* loop_dps *)
  d_gv : option (list bool);     (* ghost_verts *)
  d_des : list bool              (* dofed_edges *)
}.
Definition b2z (b : bool) : Z := if b then 1 else 0.
(** pack_message, :883-915; [junk]: the end of the array that is counted but not written without ghost_verts *)
Definition pack_message (D : memd) (junk : list Z) : list Z :=
  Z.of_nat (length (d_gn D)) :: d_gn D ++
  Z.of_nat (S (length (d_loops D)) + S (length (d_dps D))) :: pack_table (d_loops D) ++ pack_table (d_dps D) ++
  (match d_gv D with Some gv => Z.of_nat (length gv) :: map b2z gv | None => [0] end) ++
  Z.of_nat (length (d_des D)) :: map b2z (d_des D) ++ junk.
Record umsg := mkU { u_gn : list Z; u_loops : list (list Z); u_dps : list (list Z); u_gv : list Z; u_des : list Z }.
(** unpack_message, :917-937 *)
Definition unpack_message (msg : list Z) : res umsg :=
  lgn <- rd msg 0 ;;
  gns <- part msg 1 lgn ;;
  let cnt := (1 + Z.to_nat lgn)%nat in
  fib <- rd msg cnt ;;
  if fib <? 0 then Err OutOfBounds else
  let cnt := S cnt in
  ' (cl, cfi, loops) <- unpack_table (skipn cnt msg) (Z.to_nat fib) ;;
  let cnt := (cnt + cl)%nat in
  ' (cl2, _, dps) <- unpack_table (skipn cnt msg) (Z.to_nat fib - cfi) ;;
  let cnt := (cnt + cl2)%nat in
  lgv <- rd msg cnt ;;
  gv <- part msg (S cnt) lgv ;;
  let cnt := (S cnt + Z.to_nat lgv)%nat in
  lde <- rd msg cnt ;;
  de <- part msg (S cnt) lde ;;
  Ret (mkU gns loops dps gv de).

(** *** the group master *)
(** the maps of one member: GetNodeMap<NT_VERTEX>(k), GetNodeMap<NT_EDGE>(k), GetFlipNodes<NT_EDGE>(k) *)
Record mapd := mkMp { p_vmap : list Z; p_emap : list Z; p_flip : list bool }.
(** allgnums, :985-990 *)
Definition all_gnums (us : list umsg) : res (list Z) := foldM (fun a g => ' (_, a') <- insert_into_sorted_array_nodups g a ;; Ret a') (concat (map u_gn us)) [].
(** ghost vertices, :1002-1012: first the marks of vertices that are no ghost somewhere, then inverted *)
Definition cgv_member (bits : list bool) (x : umsg * mapd) : res (list bool) :=
  ' (_, b) <- foldM (fun (st : nat * list bool) g => let '(j, b) := st in
     if g =? 0 then v <- rd (p_vmap (snd x)) j ;; if v <? 0 then Err OutOfBounds else b' <- wr b (Z.to_nat v) true ;; Ret (S j, b') else Ret (S j, b)) (u_gv (fst x)) (O, bits) ;; Ret b.
Definition ctr_ghosts (ncv : nat) (us : list umsg) (ms : list mapd) : res (list bool) :=
  bits <- foldM cgv_member (combine us ms) (repeat false ncv) ;; Ret (map negb bits).
(** loop_maps and dofed_edge_maps, :1036-1050 *)
Definition loop_map (gnums : list Z) (u : umsg) : res (list nat) := mapM (fun g => posn g gnums) (u_gn u).
Definition de_map (ce2dof : list Z) (x : umsg * mapd) : res (list Z) :=
  ' (_, l) <- foldM (fun (st : nat * list Z) d => let '(j, l) := st in
     if d =? 1 then e <- rd (p_emap (snd x)) j ;; cd <- rdz ce2dof e ;; Ret (S j, l ++ [cd]) else Ret (S j, l)) (u_des (fst x)) (O, []) ;; Ret l.
(** one entry of a loop, :1086-1092 *)
Definition map_code (mp : mapd) (c : Z) : res Z :=
  let ort := if 0 <? c then 1 else -1 in
  let enr := ort * c - 1 in
  cenr <- rdz (p_emap mp) enr ;; fl <- rdz (p_flip mp) enr ;;
  let ort := if fl : bool then - ort else ort in
  Ret (ort * (cenr + 1)).
(** one loop of a member, :1075-1102; [me]: rank in the new communicator *)
Definition ctr_loop (pmap : list Z) (me : Z) (mp : mapd) (st : list (list Z) * list (list Z)) (x : nat * (list Z * list Z)) : res (list (list Z) * list (list Z)) :=
  let '(tl, td) := st in
  let '(num, (loop, dps)) := x in
  cs <- mapM (map_code mp) loop ;;
  tl' <- addrow tl num cs ;;
  ps <- mapM (rdz pmap) dps ;;
  td' <- addrow td num (filter (fun q => negb (q =? me)) ps) ;;
  Ret (tl', td').
Definition ctr_member (pmap : list Z) (me : Z) (gnums : list Z) (st : list (list Z) * list (list Z)) (x : umsg * mapd) : res (list (list Z) * list (list Z)) :=
  lm <- loop_map gnums (fst x) ;;
  foldM (ctr_loop pmap me (snd x)) (combine lm (combine (u_loops (fst x)) (u_dps (fst x)))) st.
(** loops and processes of the contracted mesh *)
Definition ctr_loops (pmap : list Z) (me : Z) (us : list umsg) (ms : list mapd) : res (list (list Z) * list (list Z)) :=
  gnums <- all_gnums us ;;
  ' (tl, td) <- foldM (ctr_member pmap me gnums) (combine us ms) (repeat [] (length gnums), repeat [] (length gnums)) ;;
  cl <- RemoveDuplicates tl ;; cd <- RemoveDuplicates td ;;
  Ret (cl, cd).
(** isflipped before the exchange, :1130-1142 *)
Definition flip_member (bits : list bool) (m : mapd) : res (list bool) :=
  foldM (fun b x => if snd x : bool then if fst x <? 0 then Err OutOfBounds else f <- rdz b (fst x) ;; if f : bool then Ret b else wr b (Z.to_nat (fst x)) true else Ret b) (combine (p_emap m) (p_flip m)) bits.
Definition ctr_flips (nce : nat) (ms : list mapd) : res (list bool) := foldM flip_member ms (repeat false nce).
