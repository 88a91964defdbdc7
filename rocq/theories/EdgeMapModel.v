(** Model of the edge map of an agglomeration step on all ranks:
    /repo/src/base/coarsening/agglomerate_map.cpp:469-957 (BaseAgglomerateCoarseMap::MapEdges), with TopologicMesh::GetEdgeCM (mesh/base_mesh.cpp:35-76),
    BaseCoarseMap::GetMapC2F (coarsening/base_coarse.cpp:16-30) and the k-way merge_arrays with a comparison (utils_arrays_tables.hpp:229-298).

    -1 is [None]; a write or read outside of an array is [Err OutOfBounds].
    Left out: timers, the cache flags of GetEdgeCM / GetMapC2F, nnodes_glob (an AllReduce of the counters), faces and cells (none). *)
From Verif Require Import Base ArraysModel EQCModel ReduceModel AggMapModel.
Local Open Scope nat_scope.

(** what one rank holds: the vertex map, the coarse vertices per class (results of MapVerts), the fine edges of each class:
    edges within a class (eqc_edges) and between classes (cross_edges).  The edges are numbered: first all eqc_edges, class by class, then all cross_edges *)
Record emesh := { evmap : list (option nat); ecv : list nat; eedges : list (list (nat * nat)); xedges : list (list (nat * nat)) }.
Definition no_emesh : emesh := {| evmap := []; ecv := []; eedges := []; xedges := [] |}.
(** GetNodes<NT_EDGE> *)
Definition all_edges (R : emesh) : list (nat * nat) := concat (eedges R) ++ concat (xedges R).
(** disp_eqc[NT_EDGE], disp_cross[NT_EDGE] *)
Definition edisp (R : emesh) : list nat := disps_of (map (@length _) (eedges R)).
Definition xdisp (R : emesh) : list nat := disps_of (map (@length _) (xedges R)).
(** GetEQCOfNode<NT_EDGE>, base_mesh.hpp:114-119 *)
Definition GetEQCOfEdge (R : emesh) (id : nat) : res nat :=
  let nE := last (edisp R) 0 in if id <? nE then GetEQCOfVertex (edisp R) id else GetEQCOfVertex (xdisp R) (id - nE).
(** the ids of GetENodes<NT_EDGE>(eqc), GetCNodes<NT_EDGE>(eqc) *)
Definition GetENodes (R : emesh) (e : nat) : res (list nat) := GetEVerts (edisp R) e.
Definition GetCNodes (R : emesh) (e : nat) : res (list nat) := l <- GetEVerts (xdisp R) e ;; Ret (map (fun k => last (edisp R) 0 + k) l).

(** one row of GetEdgeCM, base_mesh.cpp:57-75: the edges of a vertex as (other vertex, edge number), sorted by the other vertex (QuickSort; the other vertices are different) *)
Definition econ_row (edges : list (nat * nat)) (x : nat) : list (nat * nat) :=
  sort_by (fun a b : nat * nat => fst a <? fst b)
    (flat_map (fun p : nat * (nat * nat) => (if fst (snd p) =? x then [(snd (snd p), fst p)] else []) ++ (if snd (snd p) =? x then [(fst (snd p), fst p)] else [])) (combine (seq 0 (length edges)) edges)).
(** one row of GetMapC2F (base_coarse.cpp:21-26, TableCreator): the fine vertices of a coarse vertex, ascending *)
Definition c2f_row (vmap : list (option nat)) (cv : nat) : list nat := filter (fun v => match nth v vmap None with Some k => k =? cv | None => false end) (seq 0 (length vmap)).
(** FlatArray row = table[k] *)
Definition c2fv (R : emesh) (cv : nat) : res (list nat) := if cv <? last (disps_of (ecv R)) 0 then Ret (c2f_row (evmap R) cv) else Err OutOfBounds.
Definition zrow (l : list nat) : list Z := map Z.of_nat l.
(** it_feids, :547-565: the fine edges between the members of two coarse vertices *)
Definition it_feids (R : emesh) (cv0 cv1 : nat) : res (list nat) :=
  memsa <- c2fv R cv0 ;; memsb <- c2fv R cv1 ;;
  foldM (fun l x =>
    let row := econ_row (all_edges R) x in
    foldM (fun l (p : nat * nat) => feid <- rd (map snd row) (fst p) ;; Ret (l ++ [feid])) (iterate_intersection (zrow (map fst row)) (zrow memsb)) l) memsa [].
Definition set_bits (b : list bool) (ids : list nat) : res (list bool) := foldM (fun b i => wr b i true) ids b.

(** sort_tup, less_tup :625-638; a tuple (id of class 0, id of class 1, number in class 0, number in class 1) *)
Definition tup : Type := (nat * nat) * (nat * nat).
Definition sort_tup (t : tup) : tup :=
  let '((t0, t1), (t2, t3)) := t in
  if t0 =? t1 then (if t3 <? t2 then ((t0, t1), (t3, t2)) else t) else if t1 <? t0 then ((t1, t0), (t3, t2)) else t.
Definition less_tup (a b : tup) : bool :=
  let '((a0, a1), (a2, a3)) := a in let '((b0, b1), (b2, b3)) := b in
  let ain := a0 =? a1 in let bin := b0 =? b1 in
  if ain && negb bin then true else if bin && negb ain then false
  else if a0 <? b0 then true else if b0 <? a0 then false
  else if a1 <? b1 then true else if b1 <? a1 then false
  else if a2 <? b2 then true else if b2 <? a2 then false
  else if a3 <? b3 then true else false.
Definition tup_eqb (a b : tup) : bool := (fst (fst a) =? fst (fst b)) && (snd (fst a) =? snd (fst b)) && (fst (snd a) =? fst (snd b)) && (snd (snd a) =? snd (snd b)).

(** k-way merge_arrays(tab, less), utils_arrays_tables.hpp:229-298; a row with its cursor is the rest of the row (cf. ArraysModel.merge_arrays).
    The number of rounds is at most the number of entries *)
Section MergeBy.
  Context {T : Type} (less eqb : T -> T -> bool).
  Fixpoint first_head_by (rows : list (list T)) : option T := match rows with [] => None | [] :: t => first_head_by t | (h :: _) :: _ => Some h end.
  Fixpoint heads_min_by (rows : list (list T)) (m : T) : T := match rows with [] => m | [] :: t => heads_min_by t m | (h :: _) :: t => heads_min_by t (if eqb h m then m else if less h m then h else m) end.
  Definition advance_by (m : T) (r : list T) : list T := match r with h :: t => if eqb h m then t else r | [] => [] end.
  Fixpoint merge_by_loop (fuel : nat) (rows : list (list T)) : list T :=
    match fuel, first_head_by rows with
    | S f, Some c => let m := heads_min_by rows c in m :: merge_by_loop f (map (advance_by m) rows)
    | _, _ => []
    end.
  Definition merge_by (rows : list (list T)) : list T := merge_by_loop (length (concat rows)) rows.
End MergeBy.

(** arguments of edge_lam: spec_feid, feqc, ceqc, ccross, cv0, ceq0, cv1, ceq1, it_feids *)
Record call := { k_id : nat; k_feq : nat; k_ceq : nat; k_cross : bool; k_v0 : nat; k_q0 : nat; k_v1 : nat; k_q1 : nat; k_fes : list nat }.

Section MapEdges.
  Variable tabs : list (list (list nat)).
  Section Rank.
    Variables (me : nat) (R : emesh).
    Notation tab := (nth me tabs []).
    Notation neqcs := (length tab).
    Notation cdisp := (disps_of (ecv R)).
    (** body of the loop of wrap_elam, :518-610; state: mark, desig, state of the lambdas *)
    Definition wrap_edge {S : Type} (check : S -> nat -> res bool) (order : bool) (lam : S -> call -> res S) (eqc : nat) (st : list bool * list bool * S) (id : nat) : res (list bool * list bool * S) :=
      let '(mark, desig, s) := st in
      mk <- rd mark id ;;
      if mk : bool then Ret st else
      ok <- check s id ;;
      if negb ok then Ret st else
      e <- rd (all_edges R) id ;;
      a <- rd (evmap R) (fst e) ;;
      b <- rd (evmap R) (snd e) ;;
      match a, b with
      | Some cv0, Some cv1 =>
          if cv0 =? cv1 then Ret st else
          ceq0 <- GetEQCOfVertex cdisp cv0 ;;
          ceq1 <- GetEQCOfVertex cdisp cv1 ;;
          let c_cross := negb (ceq0 =? ceq1) in
          ceq <- (if c_cross then (o <- GetCommonEQC tab ceq0 ceq1 ;; match o with Some c => Ret c | None => Err OutOfBounds end) else Ret ceq0) ;;
          dg <- rd desig id ;;
          ' (mark, max_eq, spec) <-
            (if order && (0 <? ceq) && negb dg then
               fes <- it_feids R cv0 cv1 ;;
               mark <- set_bits mark fes ;;
               ' (max_eq, spec) <- foldM (fun '(max_eq, spec) feid =>
                   eq_fe <- GetEQCOfEdge R feid ;;
                   if eq_fe =? max_eq then Ret (max_eq, Nat.min spec feid)
                   else leq <- IsLEQ tab max_eq eq_fe ;; if leq : bool then Ret (eq_fe, feid) else Ret (max_eq, spec)) fes (eqc, id) ;;
               Ret (mark, max_eq, spec)
             else Ret (mark, eqc, id)) ;;
          if negb (spec =? id) then desig <- wr desig spec true ;; Ret (mark, desig, s)
          else
            let '(cv0, ceq0, cv1, ceq1) := if cv1 <? cv0 then (cv1, ceq1, cv0, ceq0) else (cv0, ceq0, cv1, ceq1) in
            fes <- it_feids R cv0 cv1 ;;
            s <- lam s {| k_id := spec; k_feq := max_eq; k_ceq := ceq; k_cross := c_cross; k_v0 := cv0; k_q0 := ceq0; k_v1 := cv1; k_q1 := ceq1; k_fes := fes |} ;;
            mark <- set_bits mark fes ;;
            Ret (mark, desig, s)
      | _, _ => Ret st
      end.
    (** it_es_u, :613-623 (always with the local class); all rounds start with a cleared mark and desig, which is never set before the last round *)
    Definition it_es_u {S : Type} (check : S -> nat -> res bool) (order : bool) (lam : S -> call -> res S) (s : S) : res S :=
      let n := length (all_edges R) in
      ' (_, _, s) <- foldM (fun st eqc =>
          es <- GetENodes R eqc ;; st <- foldM (wrap_edge check order lam eqc) es st ;;
          xs <- GetCNodes R eqc ;; foldM (wrap_edge check order lam eqc) xs st) (seq 0 neqcs) (repeat false n, repeat false n, s) ;;
      Ret s.
    Definition incr (l : list nat) (k : nat) : res (list nat) := c <- rd l k ;; wr l k (S c).

    (** first round, :648-672: cnt_eq, cnt_cr, cnt_add_ce *)
    Definition lam1 (s : list nat * list nat * list nat) (c : call) : res (list nat * list nat * list nat) :=
      let '(ceq, ccr, cad) := s in
      cad <- (if k_ceq c =? k_feq c then Ret cad else incr cad (k_ceq c)) ;;
      if k_cross c then ccr <- incr ccr (k_ceq c) ;; Ret (ceq, ccr, cad) else ceq <- incr ceq (k_ceq c) ;; Ret (ceq, ccr, cad).
    (** second round, :680-724: the rows of tent_add_ce, of the sizes counted before *)
    Definition lam2 (cad : list nat) (tent : list (list tup)) (c : call) : res (list (list tup)) :=
      if k_ceq c =? k_feq c then Ret tent else
        id0 <- GetEQCID tabs me (k_q0 c) ;; id1 <- GetEQCID tabs me (k_q1 c) ;;
        d0 <- rd cdisp (k_q0 c) ;; d1 <- rd cdisp (k_q1 c) ;;
        row <- rd tent (k_ceq c) ;; size <- rd cad (k_ceq c) ;;
        if length row <? size then wr tent (k_ceq c) (row ++ [sort_tup ((id0, id1), (k_v0 c - d0, k_v1 c - d1))]) else Err OutOfBounds.
    (** :640-732: both rounds, rows sorted (QuickSort; the entries are different) *)
    Definition rounds12 : res (list nat * list nat * list (list tup)) :=
      ' (ceq, ccr, cad) <- it_es_u (fun _ _ => Ret true) false lam1 (repeat 0 neqcs, repeat 0 neqcs, repeat 0 neqcs) ;;
      tent <- (if 1 <? neqcs then it_es_u (fun _ _ => Ret true) false (lam2 cad) (repeat [] neqcs)
               else if forallb (Nat.eqb 0) cad then Ret (repeat [] neqcs) else Err Uninit) ;;
      Ret (ceq, ccr, map (sort_by less_tup) tent).

    (** the coarse vertices of a tuple, :771-774, :830-833 *)
    Definition tup_verts (t : tup) : res (nat * nat) :=
      let '((t0, t1), (t2, t3)) := t in
      eq0 <- GetEQCOfID tabs me t0 ;;
      d0 <- match eq0 with Some q => rd cdisp q | None => Err OutOfBounds end ;;
      eq1 <- (if negb (t1 =? t0) then GetEQCOfID tabs me t1 else Ret eq0) ;;
      d1 <- match eq1 with Some q => rd cdisp q | None => Err OutOfBounds end ;;
      Ret (t2 + d0, t3 + d1).
    Definition is_cross (t : tup) : bool := negb (snd (fst t) =? fst (fst t)).
    (** :775-797: is there a fine edge; the loop stops at the first member of v0 that has one *)
    Definition any_edge (v0 v1 : nat) : res bool :=
      memsa <- c2fv R v0 ;; memsb <- c2fv R v1 ;;
      Ret (existsb (fun x => negb (is_intersect_empty (zrow (map fst (econ_row (all_edges R) x))) (zrow memsb))) memsa).
    (** cnt[eqc]--; the counters never become negative (part of the theorems) *)
    Definition decr (l : list nat) (k : nat) : res (list nat) := c <- rd l k ;; match c with 0 => Err OutOfBounds | S c => wr l k c end.
    (** :758-801; state: cnt_eq, cnt_cr, cnt_add_eq, cnt_add_cr *)
    Definition count_add (eqc : nat) (st : list nat * list nat * list nat * list nat) (t : tup) : res (list nat * list nat * list nat * list nat) :=
      let '(ceq, ccr, aeq, acr) := st in
      ' (v0, v1) <- tup_verts t ;;
      ' (aeq, acr) <- (if is_cross t then x <- incr acr eqc ;; Ret (aeq, x) else x <- incr aeq eqc ;; Ret (x, acr)) ;;
      b <- any_edge v0 v1 ;;
      if b : bool then (if is_cross t then x <- decr ccr eqc ;; Ret (ceq, x, aeq, acr) else x <- decr ceq eqc ;; Ret (x, ccr, aeq, acr)) else Ret (ceq, ccr, aeq, acr).
    Definition count_adds (add : list (list tup)) (st : list nat * list nat * list nat * list nat) : res (list nat * list nat * list nat * list nat) :=
      foldM (fun st eqc => row <- rd add eqc ;; foldM (count_add eqc) row st) (seq 0 neqcs) st.

    (** set_cedge, :828-853; state: cedges, emap *)
    Definition cstate : Type := (list (option (nat * nat)) * list (option nat)) % type.
    Definition set_cedge (st : cstate * nat) (t : tup) : res (cstate * nat) :=
      let '((cedges, emap), id) := st in
      ' (v0, v1) <- tup_verts t ;;
      cedges <- wr cedges id (Some (if v0 <? v1 then (v0, v1) else (v1, v0))) ;;
      fes <- it_feids R v0 v1 ;;
      emap <- foldM (fun em feid => wr em feid (Some id)) fes emap ;;
      Ret ((cedges, emap), S id).
    (** :855-873 *)
    Definition set_adds (add : list (list tup)) (ceq ccr aeq os_eq os_cr : list nat) (neq : nat) (st : cstate) (eqc : nat) : res cstate :=
      row <- rd add eqc ;; o <- rd os_eq eqc ;; c <- rd ceq eqc ;; n <- rd aeq eqc ;;
      if length row <? n then Err OutOfBounds else
      ' (st, _) <- foldM set_cedge (firstn n row) (st, o + c) ;;
      o <- rd os_cr eqc ;; c <- rd ccr eqc ;;
      ' (st, _) <- foldM set_cedge (skipn n row) (st, neq + o + c) ;;
      Ret st.
    (** last round, :880-898; state: cnt_eq, cnt_cr, (cedges, emap) *)
    Definition check4 (s : list nat * list nat * cstate) (id : nat) : res bool := m <- rd (snd (snd s)) id ;; Ret (match m with None => true | Some _ => false end).
    Definition lam4 (os_eq os_cr : list nat) (neq : nat) (s : list nat * list nat * cstate) (c : call) : res (list nat * list nat * cstate) :=
      let '(ceq, ccr, (cedges, emap)) := s in
      ' (loc, ceq, ccr) <- (if k_cross c then l <- rd ccr (k_ceq c) ;; x <- incr ccr (k_ceq c) ;; Ret (l, ceq, x) else l <- rd ceq (k_ceq c) ;; x <- incr ceq (k_ceq c) ;; Ret (l, x, ccr)) ;;
      o <- (if k_cross c then o <- rd os_cr (k_ceq c) ;; Ret (neq + o) else rd os_eq (k_ceq c)) ;;
      let cid := o + loc in
      cedges <- wr cedges cid (Some (k_v0 c, k_v1 c)) ;;
      emap <- foldM (fun em feid => wr em feid (Some cid)) (k_fes c) emap ;;
      Ret (ceq, ccr, (cedges, emap)).
    Fixpoint add_lists (a b : list nat) : list nat := match a, b with x :: a, y :: b => x + y :: add_lists a b | _, _ => [] end.
    (** :758-930 after the reduction: emap, cedges, nnodes_eqc, nnodes_cross of the coarse edges *)
    Definition finish (ceq ccr : list nat) (add : list (list tup)) : res (list (option nat) * list (option (nat * nat)) * list nat * list nat) :=
      ' (ceq, ccr, aeq, acr) <- count_adds add (ceq, ccr, repeat 0 neqcs, repeat 0 neqcs) ;;
      let os_eq := disps_of (add_lists ceq aeq) in let os_cr := disps_of (add_lists ccr acr) in
      let neq := last os_eq 0 in let ncr := last os_cr 0 in
      let st := (repeat None (neq + ncr), repeat None (length (all_edges R))) in
      st <- foldM (set_adds add ceq ccr aeq os_eq os_cr neq) (seq 1 (neqcs - 1)) st ;;
      ' (ceq, ccr, (cedges, emap)) <- it_es_u check4 true (lam4 os_eq os_cr neq) (repeat 0 neqcs, repeat 0 neqcs, st) ;;
      Ret (emap, cedges, add_lists ceq aeq, add_lists ccr acr).
  End Rank.

  (** MapEdges on rank [me]; [RS]: what the ranks hold.  ReduceTable: ReduceModel, with merge_arrays(tab, less_tup), :736-743 *)
  Definition MapEdges (RS : list emesh) (me : nat) : res (list (option nat) * list (option (nat * nat)) * list nat * list nat) :=
    tents <- mapM (fun r => x <- rounds12 r (nth r RS no_emesh) ;; Ret (snd x)) (seq 0 (length tabs)) ;;
    red <- ReduceTable tabs tents (fun _ _ rows => merge_by less_tup tup_eqb rows) ;;
    ' (ceq, ccr, _) <- rounds12 me (nth me RS no_emesh) ;;
    add <- rd red me ;;
    finish me (nth me RS no_emesh) ceq ccr add.
End MapEdges.
