(** Coarse loops of the Stokes preconditioner on all processes.
    Models /repo/src/stokes/common/stokes_map_impl.hpp:244-700 (StokesCoarseMap::MapAdditionalDataB, phases I-III),
    loop_utils.hpp:268-330 (ShrinkDPTable) and stokes_mesh_impl.hpp:16-66 (AddOrientedLoops).
    Simplifications: a TableCreator is the list of rows it ends with; a neighbour's message arrives as it was sent
    (ExchangePairWise2), for ExchangePairWise it has to have the length of the row it is received in;
    it_loops runs three times on the same data (the chunks are left unchanged, C83), once here. *)
From Verif Require Import Base ArraysModel LoopModel.
Open Scope Z_scope.
Import ListNotations.

(** what one process knows *)
Record rankd := mkR {
  r_loops : list (list Z);          (* fmesh.GetLoops() *)
  r_dps : list (list Z);            (* floop_uDofs.GetDistantProcs(k) *)
  r_all : list Z;                   (* floop_uDofs.GetDistantProcs() *)
  r_e2dof : list Z;                 (* f_e2dof *)
  r_master : list bool;             (* fde_uDofs.IsMasterDof *)
  r_edges : list (nat * nat);       (* fedges *)
  r_vmap : list Z;                  (* vmap *)
  r_cid : list pt;                  (* coarse vertex -> (GetEQCID(eqc), number in eqc) *)
  r_vert : pt -> option nat;        (* GetEQCOfID and MapENodeFromEQC: None for an unknown class *)
  r_econ : nat -> nat -> Z;         (* cecon *)
  r_eqdps : list Z                  (* eqc_h.GetDistantProcs() *)
}.

Definition rdz {A} (l : list A) (i : Z) : res A := if i <? 0 then Err OutOfBounds else rd l (Z.to_nat i).
(** kp = find_in_sorted_array(p, all_dps), used as an index *)
Definition posn (p : Z) (all : list Z) : res nat :=
  o <- find_in_sorted_array p all ;; match o with Some i => Ret i | None => Err OutOfBounds end.

(** *** Phase I, stokes_map_impl.hpp:244-285: one fine loop *)
Definition init_entry (R : rankd) (acc : list edge4) (c : Z) : res (list edge4) :=
  let '(pos, fenr) := loopDecode c in
  fdnr <- rdz (r_e2dof R) fenr ;;
  if fdnr =? -1 then Ret acc else
  ms <- rdz (r_master R) fdnr ;;
  if negb ms then Ret acc else
  e <- rdz (r_edges R) fenr ;;
  cv0 <- rd (r_vmap R) (fst e) ;;
  cv1 <- rd (r_vmap R) (snd e) ;;
  if cv0 =? cv1 then Ret acc else
  let '(cv0, cv1) := if pos : bool then (cv0, cv1) else (cv1, cv0) in
  p0 <- rdz (r_cid R) cv0 ;;
  p1 <- rdz (r_cid R) cv1 ;;
  Ret (acc ++ [(p0, p1)]).
Definition init_loop (R : rankd) (loop : list Z) : res (list edge4) := foldM (init_entry R) loop [].
Fixpoint mapM {A B} (f : A -> res B) (l : list A) : res (list B) :=
  match l with [] => Ret [] | a :: l' => b <- f a ;; r <- mapM f l' ;; Ret (b :: r) end.
Definition init_cl_vs (R : rankd) : res (list (list edge4)) := mapM (init_loop R) (r_loops R).

(** *** sending: item k to every process of row k, :308-331 and loop_utils.hpp:300-309 *)
Definition addrow {A} (t : list (list A)) (i : nat) (xs : list A) : res (list (list A)) := row <- rd t i ;; wr t i (row ++ xs).
Definition send_loop {A} (all : list Z) (t : list (list A)) (x : list Z * list A) : res (list (list A)) :=
  foldM (fun t p => i <- posn p all ;; addrow t i (snd x)) (fst x) t.
Definition send_table {A} (all : list Z) (dps : list (list Z)) (items : list (list A)) : res (list (list A)) :=
  foldM (send_loop all) (combine dps items) (repeat [] (length all)).
(** the rows process r gets, in the order of its list of neighbours; [alls] and [sent]: neighbours and send tables of all processes *)
Definition exchange {A} (alls : list (list Z)) (sent : list (list (list A))) (r : nat) : res (list (list A)) :=
  allr <- rd alls r ;;
  mapM (fun p => allp <- rdz alls p ;; sp <- rdz sent p ;; i <- posn (Z.of_nat r) allp ;; rd sp i) allr.
(** the header (size, -1, -1, -1) and the tuples of a loop, :322-326 *)
Definition message (cl : list edge4) : list edge4 := ((Z.of_nat (length cl), -1), (-1, -1)) :: cl.

(** *** Phase II.II, :345-377: (kp, p, os, len) of the chunks of every loop *)
Definition coord := (Z * Z * nat * Z)%type.
Definition coords_proc (all : list Z) (recv : list (list edge4)) (st : list nat * list coord) (p : Z) : res (list nat * list coord) :=
  let '(cnt, out) := st in
  i <- posn p all ;;
  c <- rd cnt i ;; row <- rd recv i ;; h <- rd row c ;;
  let len := fst (fst h) in
  cnt' <- wr cnt i (c + (1 + Z.to_nat len))%nat ;;
  Ret (cnt', out ++ [(Z.of_nat i, p, (c + 1)%nat, len)]).
Fixpoint ins_coord (x : coord) (l : list coord) : list coord :=
  match l with
  | [] => [x]
  | y :: l' => if snd (fst (fst x)) <=? snd (fst (fst y)) then x :: l else y :: ins_coord x l'
  end.
(** QuickSort by rank: the ranks of the chunks of one loop differ *)
Definition sort_coords (l : list coord) : list coord := fold_right ins_coord [] l.
Definition coords_loop (all : list Z) (recv : list (list edge4)) (me : Z) (st : list nat * list (list coord)) (x : list Z * list Z) :=
  let '(cnt, out) := st in
  ' (cnt, cs) <- foldM (coords_proc all recv) (fst x) (cnt, []) ;;
  Ret (cnt, out ++ [sort_coords (cs ++ [(-1, me, O, Z.of_nat (length (snd x)))])]).
Definition chunk_ijks (all : list Z) (dps : list (list Z)) (loops : list (list Z)) (recv : list (list edge4)) (me : Z) : res (list (list coord)) :=
  ' (_, out) <- foldM (coords_loop all recv me) (combine dps loops) (repeat O (length all), []) ;; Ret out.

(** *** Phase II.III, :385-490 *)
(** FlatArray::Part(os, len) *)
Definition part {A} (l : list A) (os : nat) (len : Z) : res (list A) :=
  if (len <? 0) || (length l <? os + Z.to_nat len)%nat then Err OutOfBounds else Ret (firstn (Z.to_nat len) (skipn os l)).
Definition chunk_data (recv : list (list edge4)) (mine : list edge4) (x : coord) : res (list edge4) :=
  let '(kp, _, os, len) := x in
  if kp <? 0 then Ret mine else row <- rdz recv kp ;; part row os len.
(** [A,A], [A,B,A] and shorter ones are dropped, the others rotated *)
Definition keep_loop (slk : list pt) : bool :=
  match slk with
  | [] | [_] => false
  | s :: _ => negb ((length slk <=? 3)%nat && pteqb s (last slk s))
  end.
Definition loops_of (sorti : list pt -> list nat) (fuel : nat) (data : list (list edge4)) : res (list (list pt)) :=
  ' (_, simple) <- SimpleLoopsFromChunks sorti fuel data ;;
  mapM rotateVLoop (filter keep_loop simple).
Definition it_loop (sorti : list pt -> list nat) (fuel : nat) (recv : list (list edge4)) (x : list coord * list edge4) : res (list (list pt)) :=
  data <- mapM (chunk_data recv (snd x)) (fst x) ;; loops_of sorti fuel data.

(** phases I and II on all processes: for process r and every fine loop its coarse loops *)
Definition phase2 (sorti : list pt -> list nat) (fuel : nat) (W : list rankd) (r : nat) : res (list (list (list pt))) :=
  inits <- mapM init_cl_vs W ;;
  sent <- mapM (fun x => send_table (r_all (fst x)) (r_dps (fst x)) (map message (snd x))) (combine W inits) ;;
  recv <- exchange (map r_all W) sent r ;;
  R <- rd W r ;; init <- rd inits r ;;
  co <- chunk_ijks (r_all R) (r_dps R) (r_loops R) recv (Z.of_nat r) ;;
  mapM (it_loop sorti fuel recv) (combine co init).

(** *** Phase III, :500-600: duplicates *)
Definition zinsert (pos : nat) (x : Z) (l : list Z) : list Z := array_insert pos x l.
Definition eq_entry (st : list Z * list Z * list Z) (loop : list pt) : res (list Z * list Z * list Z) :=
  let '(ids, mins, nexts) := st in
  v <- rd loop 0 ;;
  o <- merge_pos_in_sorted_array (fst v) ids ;;
  match o with
  | None => Err OutOfBounds
  | Some pos =>
      same <- (if (0 <? pos)%nat then y <- rd ids (pos - 1) ;; Ret (y =? fst v) else Ret false) ;;
      if same : bool then
        m <- rd mins (pos - 1) ;; n <- rd nexts (pos - 1) ;;
        mins' <- wr mins (pos - 1) (Z.min m (snd v)) ;; nexts' <- wr nexts (pos - 1) (Z.max n (snd v + 1)) ;;
        Ret (ids, mins', nexts')
      else Ret (zinsert pos (fst v) ids, zinsert pos (snd v) mins, zinsert pos (snd v + 1) nexts)
  end.
(** the three arrays; they are sorted by id already, so that sorting them again (:533-537) changes nothing *)
Definition eq_arrays (cl : list (list pt)) : res (list Z * list Z * list Z) := foldM eq_entry cl ([], [], []).
Fixpoint offsets_from (os : Z) (mins nexts : list Z) : list Z :=
  match mins, nexts with m :: mins', n :: nexts' => os :: offsets_from (os + (n - m)) mins' nexts' | _, _ => [os] end.
Definition tup2bucket (ids mins offs : list Z) (v : pt) : res Z :=
  i <- posn (fst v) ids ;; m <- rd mins i ;; o <- rd offs i ;; Ret (o + (snd v - m)).
(** buckets: loop numbers by first vertex; a bucket number outside [0, max_buckets) is out of bounds *)
Definition bucket_entry (ids mins offs : list Z) (st : nat * list (list nat)) (loop : list pt) : res (nat * list (list nat)) :=
  let '(k, t) := st in
  v <- rd loop 0 ;; b <- tup2bucket ids mins offs v ;;
  row <- rdz t b ;; t' <- wr t (Z.to_nat b) (row ++ [k]) ;; Ret (S k, t').
Definition buckets (cl : list (list pt)) : res (list (list nat)) :=
  ' (ids, mins, nexts) <- eq_arrays cl ;;
  let offs := offsets_from 0 mins nexts in
  ' (_, t) <- foldM (bucket_entry ids mins offs) cl (O, repeat [] (Z.to_nat (last offs 0))) ;; Ret t.
Fixpoint loopeqb (a b : list pt) : bool :=
  match a, b with [], [] => true | x :: a', y :: b' => pteqb x y && loopeqb a' b' | _, _ => false end.
(** the first l < j in the bucket with the same loop, :577-590 *)
Fixpoint find_dup (cl : list (list pt)) (mine : list pt) (before : list nat) : res (option nat) :=
  match before with
  | [] => Ret None
  | l :: before' => x <- rd cl l ;; if loopeqb mine x then Ret (Some l) else find_dup cl mine before'
  end.
Fixpoint dup_bucket (cl : list (list pt)) (before rest : list nat) (dups : list Z) : res (list Z) :=
  match rest with
  | [] => Ret dups
  | j :: rest' =>
      mine <- rd cl j ;; d <- find_dup cl mine before ;;
      dups <- (match d with None => Ret dups | Some l => wr dups j (Z.of_nat l) end) ;;
      dup_bucket cl (before ++ [j]) rest' dups
  end.
Definition ce_dups (cl : list (list pt)) : res (list Z) :=
  t <- buckets cl ;; foldM (fun d b => dup_bucket cl [] b d) t (repeat (-1) (length cl)).
(** convert_loop, :600-632: the local part as signed coarse edges *)
Fixpoint convert_from (R : rankd) (v : pt) (l : list pt) : list Z :=
  match l with
  | [] => []
  | w :: l' =>
      match r_vert R v, r_vert R w with
      | Some cv, Some cw => let e := r_econ R cv cw in
          if e =? -1 then convert_from R w l' else loopEncode (Z.of_nat cv) (Z.of_nat cw) e :: convert_from R w l'
      | _, _ => convert_from R w l'
      end
  end.
Definition convert_loop (R : rankd) (loop : list pt) : res (list Z) := match loop with [] => Err OutOfBounds | v :: l => Ret (convert_from R v l) end.
(** the duplicate-free tables init_cloops and init_loopers, :640-655; [cl]: coarse loops with the neighbours of their fine loop *)
Fixpoint keep_undup (R : rankd) (cl : list (list pt * list Z)) (dups : list Z) : res (list (list Z * list Z)) :=
  match cl, dups with
  | (l, ps) :: cl', d :: dups' =>
      if d =? -1 then s <- convert_loop R l ;; r <- keep_undup R cl' dups' ;; Ret ((s, ps) :: r) else keep_undup R cl' dups'
  | _, _ => Ret []
  end.
Definition phase3 (R : rankd) (cl : list (list pt * list Z)) : res (list (list Z * list Z)) :=
  dups <- ce_dups (map fst cl) ;; keep_undup R cl dups.
(** all_c_loops and all_c_loopers, :470-490 *)
Definition flat_loops (dps : list (list Z)) (per_fine : list (list (list pt))) : list (list pt * list Z) :=
  concat (map (fun x => map (fun l => (l, fst x)) (snd x)) (combine dps per_fine)).

(** *** ShrinkDPTable on all processes, loop_utils.hpp:268-325; [rem]: remove_me *)
Definition istay (b : bool) : list Z := [if b then 0 else 1].
Fixpoint row_map (rem : list bool) (n : nat) : list Z :=
  match rem with [] => [] | b :: rem' => if b then -1 :: row_map rem' n else Z.of_nat n :: row_map rem' (S n) end.
Definition shrink_proc (all : list Z) (recv : list (list Z)) (rem : bool) (st : list nat * list Z) (p : Z) : res (list nat * list Z) :=
  let '(cnt, out) := st in
  i <- posn p all ;;
  c <- rd cnt i ;; row <- rd recv i ;; x <- rd row c ;;
  cnt' <- wr cnt i (c + 1)%nat ;;
  Ret (cnt', if (x =? 1) && negb rem then out ++ [p] else out).
Definition shrink_loop (all : list Z) (recv : list (list Z)) (st : list nat * list (list Z)) (x : list Z * bool) :=
  let '(cnt, out) := st in
  ' (cnt, ps) <- foldM (shrink_proc all recv (snd x)) (fst x) (cnt, []) ;;
  Ret (cnt, if snd x then out else out ++ [ps]).
(** ExchangePairWise into rows of given lengths *)
Fixpoint sizes_ok {A B} (a : list (list A)) (b : list (list B)) : bool :=
  match a, b with [], [] => true | x :: a', y :: b' => (length x =? length y)%nat && sizes_ok a' b' | _, _ => false end.
Definition ShrinkDPTable (alls : list (list Z)) (dpss : list (list (list Z))) (rems : list (list bool)) (r : nat) : res (list (list Z) * list Z) :=
  sent <- mapM (fun x => send_table (fst (fst x)) (snd (fst x)) (map istay (snd x))) (combine (combine alls dpss) rems) ;;
  recv <- exchange alls sent r ;;
  all <- rd alls r ;; dps <- rd dpss r ;; rem <- rd rems r ;; mine <- rd sent r ;;
  if negb (sizes_ok mine recv) then Err OutOfBounds else
  ' (_, out) <- foldM (shrink_loop all recv) (combine dps rem) (repeat O (length all), []) ;;
  Ret (out, row_map rem 0).

(** AddOrientedLoops, stokes_mesh_impl.hpp:16-66: for process r the loops and the table of distant processes *)
Definition all_loop_dps (eqdps : list Z) (dps : list (list Z)) : res (list Z) :=
  foldM (fun a p => ' (_, a') <- insert_into_sorted_array_nodups p a ;; Ret a') (concat dps) eqdps.
Fixpoint filt_loops (loops : list (list Z)) (rm : list Z) : list (list Z) :=
  match loops, rm with l :: loops', m :: rm' => if m =? -1 then filt_loops loops' rm' else l :: filt_loops loops' rm' | _, _ => [] end.
Definition AddOrientedLoops (eqdps : list (list Z)) (loopss : list (list (list Z))) (dpss : list (list (list Z))) (r : nat) : res (list (list Z) * list (list Z)) :=
  alls <- mapM (fun x => all_loop_dps (fst x) (snd x)) (combine eqdps dpss) ;;
  let rems := map (map (fun l : list Z => match l with [] => true | _ => false end)) loopss in
  ' (dps, rm) <- ShrinkDPTable alls dpss rems r ;;
  loops <- rd loopss r ;;
  Ret (filt_loops loops rm, dps).
