(** Model of the vertex map of an agglomeration step on all ranks:
    /repo/src/base/coarsening/agglomerate_map.cpp:106-283 (BaseAgglomerateCoarseMap::MapVerts).

    [tabs] r e: the other ranks of class e of rank r (EQCModel); class 0 is the local class.  The vertices of a rank are numbered class by class.
    -1 is [None]; a write outside of an array is [Err OutOfBounds].
    Left out: the timers, the counters cnt_same / cnt_change (written to exdata[eqc][1], [2], never used), nnodes_glob (an AllReduce of the counters),
    the array verts (k -> k). *)
From Verif Require Import Base ArraysModel EQCModel.
Local Open Scope nat_scope.

(** what one rank holds: number of vertices per class (BlockTM::nnodes_eqc[NT_VERTEX], base_mesh.hpp:150), agglomerates (centre, members), agglomerate.hpp, and the map vertex -> agglomerate *)
Record fine := { nverts : list nat; aggs : list (nat * list nat); v_to_agg : list (option nat) }.
Definition no_fine : fine := {| nverts := []; aggs := []; v_to_agg := [] |}.

(** disps: agglomerate_map.cpp:212-214 (also disp_eqc of the fine mesh): disps[0] = 0, disps[k+1] = disps[k] + cnt[k] *)
Fixpoint prefix_from (s : nat) (cnt : list nat) : list nat := match cnt with [] => [s] | c :: cnt => s :: prefix_from (s + c) cnt end.
Definition disps_of (cnt : list nat) : list nat := prefix_from 0 cnt.
(** GetEqcOfENode / GetEQCOfNode<NT_VERTEX>, base_mesh.hpp:114-119: the position of the vertex in the displacements, minus 1.
    A number outside of the vertices would be looked up in the cross table, which vertices do not have: OutOfBounds *)
Definition GetEQCOfVertex (disp : list nat) (v : nat) : res nat :=
  if v <? last disp 0 then
    p <- merge_pos_in_sorted_array (Z.of_nat v) (map Z.of_nat disp) ;;
    match p with Some (S p) => Ret p | _ => Err OutOfBounds end
  else Err OutOfBounds.
(** GetENodes<NT_VERTEX>(eqc), base_mesh.hpp: the vertices of a class *)
Definition GetEVerts (disp : list nat) (e : nat) : res (list nat) := a <- rd disp e ;; b <- rd disp (S e) ;; Ret (seq a (b - a)).

(** the entry of one vertex in exdata: (number within the coarse class, id of the coarse class), or -1 *)
Definition loc_entry : Type := option (nat * nat).
(** the row of a class in exdata: number of coarse vertices in the class, the entries of its vertices *)
Definition ex_row : Type := nat * list loc_entry.

Section MapVerts.
  Variable tabs : list (list (list nat)).
  (** agglomerate_map.cpp:160-186: one vertex of a class the rank is master of.  State: cnt_vs, (agg_map, agg_eqc), the row loc_map so far *)
  Definition visit (me : nat) (F : fine) (st : list nat * list (option (nat * nat)) * list loc_entry) (v : nat) : res (list nat * list (option (nat * nat)) * list loc_entry) :=
    let '(cnt, am, row) := st in
    agg_nr <- rd (v_to_agg F) v ;;
    match agg_nr with
    | None => Ret (cnt, am, row ++ [None])
    | Some a =>
        s <- rd am a ;;
        ' (cnt, am, cid, ceq) <-
          match s with
          | Some (cid, ceq) => Ret (cnt, am, cid, ceq)
          | None =>
              agg <- rd (aggs F) a ;;
              ceq <- GetEQCOfVertex (disps_of (nverts F)) (fst agg) ;;
              c <- rd cnt ceq ;;
              cnt <- wr cnt ceq (S c) ;;
              am <- wr am a (Some (c, ceq)) ;;
              Ret (cnt, am, c, ceq)
          end ;;
        id <- GetEQCID tabs me ceq ;;
        Ret (cnt, am, row ++ [Some (cid, id)])
    end.
  (** :152-189: the classes from 1 on that the rank is master of; the other rows are left for the message *)
  Definition visit_class (me : nat) (F : fine) (st : list nat * list (option (nat * nat)) * list (list loc_entry)) (e : nat) : res (list nat * list (option (nat * nat)) * list (list loc_entry)) :=
    let '(cnt, am, rows) := st in
    dps <- rd (nth me tabs []) e ;;
    if is_master me dps then
      vs <- GetEVerts (disps_of (nverts F)) e ;;
      ' (cnt, am, row) <- foldM (visit me F) vs (cnt, am, []) ;;
      Ret (cnt, am, rows ++ [row])
    else Ret (cnt, am, rows ++ [[]]).
  Definition phase1 (me : nat) (F : fine) : res (list nat * list ex_row) :=
    let neqcs := length (nth me tabs []) in
    ' (cnt, am, rows) <- foldM (visit_class me F) (seq 1 (neqcs - 1)) (repeat 0 neqcs, repeat None (length (aggs F)), []) ;;
    (* :190-192; row 0 of exdata is empty and never sent *)
    Ret (cnt, match neqcs with 0 => [] | _ => (0, []) :: combine (skipn 1 cnt) rows end).

  (** :199-207: the agglomerates whose centre is local *)
  Definition set_members (ms : list nat) (cid : nat) (vmap : list (option nat)) : res (list (option nat)) := foldM (fun vm m => wr vm m (Some cid)) ms vmap.
  Definition local_agg (F : fine) (st : nat * list (option nat)) (agg : nat * list nat) : res (nat * list (option nat)) :=
    let '(c, vmap) := st in
    e <- GetEQCOfVertex (disps_of (nverts F)) (fst agg) ;;
    if e =? 0 then vmap <- set_members (snd agg) c vmap ;; Ret (S c, vmap) else Ret (c, vmap).
  (** :217-245: the vertices of the classes from 1 on, with the rows received *)
  Definition ex_vertex (me : nat) (F : fine) (disps : list nat) (vmap : list (option nat)) (p : nat * loc_entry) : res (list (option nat)) :=
    let '(v, ent) := p in
    match ent with
    | None => Ret vmap
    | Some (cid_loc, id) =>
        ceq <- GetEQCOfID tabs me id ;;
        match ceq with
        | None => Err OutOfBounds
        | Some ceq =>
            d <- rd disps ceq ;;
            let cid := d + cid_loc in
            vmap <- wr vmap v (Some cid) ;;
            agg_nr <- rd (v_to_agg F) v ;;
            match agg_nr with
            | None => Ret vmap
            | Some a => agg <- rd (aggs F) a ;; if fst agg =? v then set_members (snd agg) cid vmap else Ret vmap
            end
        end
    end.
  Definition ex_class (me : nat) (F : fine) (disps : list nat) (ex : list ex_row) (vmap : list (option nat)) (e : nat) : res (list (option nat)) :=
    row <- rd ex e ;;
    vs <- GetEVerts (disps_of (nverts F)) e ;;
    if length (snd row) <? length vs then Err OutOfBounds else foldM (ex_vertex me F disps) (combine vs (snd row)) vmap.

  (** MapVerts on rank [me], agglomerate_map.cpp:106-257: the vertex map and the number of coarse vertices per class; [W]: what the ranks hold *)
  Definition MapVerts (W : list fine) (me : nat) : res (list (option nat) * list nat) :=
    data <- mapM (fun r => x <- phase1 r (nth r W no_fine) ;; Ret (snd x)) (seq 0 (length tabs)) ;;
    let F := nth me W no_fine in
    x <- phase1 me F ;;
    ex <- ScatterEQCData tabs data me ;;
    let neqcs := length (nth me tabs []) in
    let vmap := repeat None (last (disps_of (nverts F)) 0) in
    c0 <- match aggs F with [] => Ret (nth 0 (fst x) 0) | _ => rd (fst x) 0 end ;;
    ' (c0, vmap) <- foldM (local_agg F) (aggs F) (c0, vmap) ;;
    let cnt := match neqcs with 0 => [] | _ => c0 :: map fst (skipn 1 ex) end in
    vmap <- foldM (ex_class me F (disps_of cnt) ex) (seq 1 (neqcs - 1)) vmap ;;
    Ret (vmap, cnt).
End MapVerts.
