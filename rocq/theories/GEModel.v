(** Model of the edges of the redistributed mesh, /repo/src/base/coarsening/grid_contract.cpp:512-905 (GridContractMap::BuildNodeMaps), on the masters of all groups.

    [Cs] g = what group g got from BuildCEQCH, [Rs] g = its vertex maps (GCModel); the tables [c_tab] of all groups are the hierarchy of the new mesh.
    An edge of a member's mesh is (first vertex, second vertex, number).  -1 is None; using it as an index is an error.
    Simplifications: QuickSort is insertion sort; IVec<5> is a record; [annoy_havec], [has_set], timers and output are left out (never used);
    the second pass of the TableCreator repeats the first one; arrays without initial value start with 0. *)
From Verif Require Import Base EQCModel AggMapModel ReduceModel GCModel.
Local Open Scope nat_scope.

Definition fedge : Type := (nat * nat) * nat.
Definition quad : Type := (nat * nat) * (nat * nat). (* ANNOYE: id of the class and position of both ends *)
Definition quad_eqb (a b : quad) : bool :=
  (fst (fst a) =? fst (fst b)) && (snd (fst a) =? snd (fst b)) && (fst (snd a) =? fst (snd b)) && (snd (snd a) =? snd (snd b)).
(** lambda of the sort, :584-591 *)
Definition lex4 (a b : list nat) : bool :=
  (fix go a b := match a, b with x :: a, y :: b => if x <? y then true else if y <? x then false else go a b | _, _ => false end) a b.
Definition quad_in (a : quad) : bool := fst (fst a) =? fst (snd a).
Definition quad_key (a : quad) : list nat := [fst (fst a); fst (snd a); snd (fst a); snd (snd a)].
Definition quad_less (a b : quad) : bool :=
  if quad_in a && negb (quad_in b) then true else if quad_in b && negb (quad_in a) then false else lex4 (quad_key a) (quad_key b).
(** lambda of ReduceTable, :576-593 *)
Definition reduce_annoy (rows : list (list quad)) : list quad := sort_by quad_less (concat rows).

(** entry of a node map *)
Definition map_at (vm : list (option nat)) (v : nat) : res nat := o <- rd vm v ;; match o with Some x => Ret x | None => Err Uninit end.
(** cv1, cv2 and the swap, :545-547, 785-787 *)
Definition ends_of (vm : list (option nat)) (e : fedge) : res (nat * nat) :=
  a <- map_at vm (fst (fst e)) ;; b <- map_at vm (snd (fst e)) ;; Ret (if b <? a then (b, a) else (a, b)).
(** MapNodeToEQC<NT_VERTEX>, base_mesh.hpp:128 *)
Definition pos_in_class (dsp : list nat) (v : nat) : res nat := c <- GetEQCOfVertex dsp v ;; d <- rd dsp c ;; Ret (v - d).
Definition quad_of (CT : list (list (list nat))) (me : nat) (dsp : list nat) (c1 c2 v1 v2 : nat) : res quad :=
  i1 <- GetEQCID CT me c1 ;; i2 <- GetEQCID CT me c2 ;; p1 <- pos_in_class dsp v1 ;; p2 <- pos_in_class dsp v2 ;; Ret ((i1, p1), (i2, p2)).
Definition incr (l : list nat) (i : nat) : res (list nat) := x <- rd l i ;; wr l i (S x).
Definition incr2 (t : list (list nat)) (i j : nat) : res (list (list nat)) := r <- rd t i ;; r <- incr r j ;; wr t i r.

(** *** counting of the cross edges, :527-571 *)
Record cstate := mkS { s_ci : list (list nat); s_get : list nat; s_have : list nat; s_annoy : list nat; s_tab : list (list quad) }.
Definition count_edge (CT : list (list (list nat))) (me m ceq : nat) (dsp : list nat) (vm : list (option nat)) (S : cstate) (e : fedge) : res cstate :=
  ' (cv1, cv2) <- ends_of vm e ;;
  c1 <- GetEQCOfVertex dsp cv1 ;; c2 <- GetEQCOfVertex dsp cv2 ;;
  if (c1 =? c2) && (c1 =? ceq) then
    ci <- incr2 (s_ci S) m c1 ;; g <- incr (s_get S) c1 ;; h <- incr (s_have S) m ;; Ret (mkS ci g h (s_annoy S) (s_tab S))
  else
    o <- GetCommonEQC (nth me CT []) c1 c2 ;;
    match o with
    | None => Err OutOfBounds
    | Some cut =>
        if ceq =? cut then Ret S else
        q <- quad_of CT me dsp c1 c2 cv1 cv2 ;;
        d <- rd (nth me CT []) ceq ;;
        t <- (if is_master me d then r <- rd (s_tab S) cut ;; wr (s_tab S) cut (r ++ [q]) else Ret (s_tab S)) ;;
        a <- incr (s_annoy S) m ;; Ret (mkS (s_ci S) (s_get S) (s_have S) a t)
    end.
(** [ces] k j = cross edges of class j of member k *)
Definition count_cross (CT : list (list (list nat))) (me : nat) (group : list nat) (C : ceqch) (R : cverts) (ces : list (list (list fedge))) : res cstate :=
  let sender := senders group C in let nc := length (c_tab C) in let nm := length (c_mc C) in
  foldM (fun S s =>
    m <- at2 (c_om C) s ;; ceq <- at2 (c_oc C) s ;; sd <- rd sender m ;; r <- rd group (fst s) ;;
    if oeqb (Some r) sd then
      es <- at2 ces s ;; vm <- rd (v_maps R) (fst s) ;; foldM (count_edge CT me m ceq (v_dsp R) vm) es S
    else Ret S) (tslots ces) (mkS (repeat (repeat 0 nc) (nm + 1)) (repeat 0 nc) (repeat 0 nm) (repeat 0 nm) (repeat [] nc)).

(** *** positions, :598-753 *)
(** annoy_count, :598-608: edges within the class come first *)
Fixpoint lead (l : list quad) : nat := match l with [] => 0 | q :: l => if quad_in q then S (lead l) else 0 end.
Definition annoy_count (ae : list (list quad)) : list (nat * nat) := map (fun l => (lead l, length l - lead l)) ae.
Record c5 := mk5 { n_ii : nat; n_ci : nat; n_ia : nat; n_cc : nat; n_ca : nat }.
(** :636-661 *)
Definition count_all (group : list nat) (C : ceqch) (S : cstate) (ac : list (nat * nat)) (ees ces : list (list (list fedge))) : res (list nat * list nat * list c5) :=
  let sender := senders group C in let nc := length (c_tab C) in let nm := length (c_mc C) in
  foldM (fun '(ii, cc, cts) s =>
    m <- at2 (c_om C) s ;; ceq <- rd (c_mc C) m ;; sd <- rd sender m ;; r <- rd group (fst s) ;;
    if oeqb (Some r) sd then
      ee <- at2 ees s ;; ce <- at2 ces s ;; x <- rd cts ceq ;; g <- rd (s_get S) ceq ;; a <- rd ac ceq ;; h <- rd (s_have S) m ;; an <- rd (s_annoy S) m ;;
      ii <- wr ii m (length ee) ;; cc <- wr cc m (length ce - h - an) ;;
      cts <- wr cts ceq (mk5 (n_ii x + length ee) g (fst a) (n_cc x + (length ce - h - an)) (snd a)) ;; Ret (ii, cc, cts)
    else Ret (ii, cc, cts)) (tslots ces) (repeat 0 nm, repeat 0 nm, repeat (mk5 0 0 0 0 0) nc).
(** disp_ie, disp_ce, :669-678 *)
Definition disp_ie (cts : list c5) : list nat := disps_of (map (fun x => n_ii x + n_ci x + n_ia x) cts).
Definition disp_ce (cts : list c5) : list nat := disps_of (map (fun x => n_cc x + n_ca x) cts).
(** the summation and the shift, :694-718 *)
Definition five_sum (p x : c5) : c5 := let a := n_ii x + n_ia p in let b := n_ci x + a in let d := n_cc x + n_ca p in mk5 a b (n_ia x + b) d (n_ca x + d).
Definition five_shift (p x : c5) : c5 := mk5 (n_ia p) (n_ii x) (n_ci x) (n_ca p) (n_cc x).
Definition sum_five (cts : list c5) : res (list c5) :=
  match cts with [] => Ret [] | _ =>
    x <- rd cts 0 ;; cts <- wr cts 0 (five_sum (mk5 0 0 0 0 0) x) ;;
    cts <- foldM (fun t c => p <- rd t (c - 1) ;; x <- rd t c ;; wr t c (five_sum p x)) (seq 1 (length cts - 1)) cts ;;
    cts <- foldM (fun t c => p <- rd t (c - 1) ;; x <- rd t c ;; wr t c (five_shift p x)) (rev (seq 1 (length cts - 1))) cts ;;
    x <- rd cts 0 ;; wr cts 0 (five_shift (mk5 0 0 0 0 0) x)
  end.
(** ii_pos and cc_pos, :725-733 *)
Definition place_blocks (C : ceqch) (cnie : nat) (ii cc : list nat) (cts : list c5) : res (list nat * list nat * list c5) :=
  foldM (fun '(ii, cc, cts) m =>
    c <- rd (c_mc C) m ;; x <- rd cts c ;; a <- rd ii m ;; b <- rd cc m ;;
    ii <- wr ii m (n_ii x) ;; cc <- wr cc m (cnie + n_cc x) ;; cts <- wr cts c (mk5 (n_ii x + a) (n_ci x) (n_ia x) (n_cc x + b) (n_ca x)) ;; Ret (ii, cc, cts))
    (seq 0 (length (c_mc C))) (ii, cc, cts).
(** ci_pos, :735-746 *)
Definition set2 (t : list (list nat)) (i j x : nat) : res (list (list nat)) := r <- rd t i ;; r <- wr r j x ;; wr t i r.
Definition place_ci (nm nc : nat) (cts : list c5) (ci : list (list nat)) : res (list (list nat)) :=
  ci <- foldM (fun t m => foldM (fun t c => a <- at2 t (m, c) ;; b <- at2 t (m + 1, c) ;; set2 t (m + 1) c (b + a)) (seq 0 nc) t) (seq 0 nm) ci ;;
  foldM (fun t c => x <- rd cts c ;;
    t <- foldM (fun t m => a <- at2 t (m, c) ;; set2 t (m + 1) c (n_ci x + a)) (rev (seq 0 (nm - 1))) t ;; set2 t 0 c (n_ci x)) (seq 0 nc) ci.

(** *** numbers of the edges and the maps, :748-831 *)
Record fstate := mkF { f_edges : list (option (nat * nat)); f_map : list (option nat); f_flip : list bool }.
(** lam, :755-763 *)
Definition put (vm : list (option nat)) (F : fstate) (id : nat) (e : fedge) : res fstate :=
  a <- map_at vm (fst (fst e)) ;; b <- map_at vm (snd (fst e)) ;;
  let fl := b <? a in
  es <- wr (f_edges F) id (Some (if fl then (b, a) else (a, b))) ;; em <- wr (f_map F) (snd e) (Some id) ;;
  fb <- (if fl then wr (f_flip F) (snd e) true else Ret (f_flip F)) ;; Ret (mkF es em fb).
Record epos := mkP { p_ii : list nat; p_cc : list nat; p_ci : list (list nat); p_a : list (nat * nat); p_ac : list (nat * nat); p_ae : list (list quad) }.
(** one cross edge, :783-828; [cci], [ccc]: CI and CC edges of this class so far *)
Definition put_cross (CT : list (list (list nat))) (me m ceq : nat) (dsp : list nat) (vm : list (option nat)) (P : epos) (st : fstate * list nat * nat) (e : fedge) : res (fstate * list nat * nat) :=
  let '(F, cci, ccc) := st in
  ' (cv0, cv1) <- ends_of vm e ;;
  c0 <- GetEQCOfVertex dsp cv0 ;; c1 <- GetEQCOfVertex dsp cv1 ;;
  if c0 =? c1 then
    if c0 =? ceq then
      b <- at2 (p_ci P) (m, c0) ;; x <- rd cci c0 ;; cci <- wr cci c0 (S x) ;; F <- put vm F (b + x) e ;; Ret (F, cci, ccc)
    else
      q <- quad_of CT me dsp c0 c1 cv0 cv1 ;; row <- rd (p_ae P) c0 ;; i <- pos_by quad_eqb q row 0 ;; a <- rd (p_a P) c0 ;;
      F <- put vm F (fst a + i) e ;; Ret (F, cci, ccc)
  else
    o <- GetCommonEQC (nth me CT []) c0 c1 ;;
    match o with
    | None => Err OutOfBounds
    | Some cut =>
        if ceq =? cut then b <- rd (p_cc P) m ;; F <- put vm F (b + ccc) e ;; Ret (F, cci, S ccc)
        else
          q <- quad_of CT me dsp c0 c1 cv0 cv1 ;; row <- rd (p_ae P) cut ;; n <- rd (p_ac P) cut ;; i <- pos_by quad_eqb q (firstn (snd n) (skipn (fst n) row)) 0 ;;
          a <- rd (p_a P) cut ;; F <- put vm F (snd a + i) e ;; Ret (F, cci, ccc)
    end.
(** one class of member k, :765-829 *)
Definition put_class (CT : list (list (list nat))) (me : nat) (C : ceqch) (dsp : list nat) (vm : list (option nat)) (P : epos) (om : list nat) (ee ce : list (list fedge)) (F : fstate) (j : nat) : res fstate :=
  m <- rd om j ;; ceq <- rd (c_mc C) m ;; ies <- rd ee j ;; b <- rd (p_ii P) m ;;
  F <- foldM (fun F l => e <- rd ies l ;; put vm F (b + l) e) (seq 0 (length ies)) F ;;
  es <- rd ce j ;;
  ' (F, _, _) <- foldM (put_cross CT me m ceq dsp vm P) es (F, repeat 0 (length (c_tab C)), 0) ;; Ret F.
(** one member; the edges of the new mesh are passed on *)
Definition put_member (CT : list (list (list nat))) (me : nat) (C : ceqch) (R : cverts) (P : epos) (ees ces : list (list (list fedge))) (st : list (option (nat * nat)) * list (list (option nat)) * list (list bool)) (k : nat)
  : res (list (option (nat * nat)) * list (list (option nat)) * list (list bool)) :=
  let '(es, maps, flips) := st in
  om <- rd (c_om C) k ;; vm <- rd (v_maps R) k ;; ee <- rd ees k ;; ce <- rd ces k ;;
  let n := length (concat ee) + length (concat ce) in
  F <- foldM (put_class CT me C (v_dsp R) vm P om ee ce) (seq 0 (length om)) (mkF es (repeat None n) (repeat false n)) ;;
  Ret (f_edges F, maps ++ [f_map F], flips ++ [f_flip F]).
(** the annoying edges of all members of the class, :833-859; second result: annoy_nodes *)
Definition end_of (CT : list (list (list nat))) (me : nat) (dsp : list nat) (x : nat * nat) : res nat :=
  o <- GetEQCOfID CT me (fst x) ;; match o with None => Err OutOfBounds | Some c => a <- rd dsp c ;; b <- rd dsp (c + 1) ;; if a + snd x <? b then Ret (a + snd x) else Err OutOfBounds end.
Definition put_annoy (CT : list (list (list nat))) (me : nat) (dsp : list nat) (P : epos) (st : list (option (nat * nat)) * list (list nat)) (c : nat) : res (list (option (nat * nat)) * list (list nat)) :=
  row <- rd (p_ae P) c ;; a <- rd (p_a P) c ;; n <- rd (p_ac P) c ;;
  ' (es, ids) <- foldM (fun '(es, ids) l => q <- rd row l ;; v0 <- end_of CT me dsp (fst q) ;; v1 <- end_of CT me dsp (snd q) ;;
    let id := if l <? fst n then fst a + l else snd a + (l - fst n) in
    es <- wr es id (Some (v0, v1)) ;; Ret (es, ids ++ [id])) (seq 0 (length row)) (fst st, []) ;;
  Ret (es, snd st ++ [ids]).

Record cedges := mkE { e_ie : list nat; e_ce : list nat; e_edges : list (option (nat * nat)); e_maps : list (list (option nat)); e_flips : list (list bool); e_annoy : list (list nat) }.
(** after the annoying edges were exchanged: [S] counts, [ae] annoying edges of all groups of each class *)
Definition number_edges (CT : list (list (list nat))) (me : nat) (group : list nat) (C : ceqch) (R : cverts) (ees ces : list (list (list fedge))) (S : cstate) (ae : list (list quad)) : res cedges :=
  let ac := annoy_count ae in
  ' (ii, cc, cts) <- count_all group C S ac ees ces ;;
  let die := disp_ie cts in let dce := disp_ce cts in
  let cnie := last die 0 in let cne := cnie + last dce 0 in
  cts <- sum_five cts ;;
  let ap := map (fun x => (n_ia x, cnie + n_ca x)) cts in (* annoy_pos, :720-724 *)
  ' (ii, cc, cts) <- place_blocks C cnie ii cc cts ;;
  ci <- place_ci (length (c_mc C)) (length (c_tab C)) cts (s_ci S) ;;
  let P := mkP ii cc ci ap ac ae in
  ' (es, maps, flips) <- foldM (put_member CT me C R P ees ces) (seq 0 (length group)) (repeat None cne, [], []) ;;
  ' (es, an) <- foldM (put_annoy CT me (v_dsp R) P) (seq 0 (length (c_tab C))) (es, []) ;;
  Ret (mkE die dce es maps flips an).
(** all groups: [ees], [ces] g k j = edges of class j of member k of group g *)
Definition map_edges (groups : list (list nat)) (Cs : list ceqch) (Rs : list cverts) (ees ces : list (list (list (list fedge)))) : res (list cedges) :=
  let CT := map c_tab Cs in let gs := seq 0 (length groups) in
  Ss <- mapM (fun g => grp <- rd groups g ;; C <- rd Cs g ;; R <- rd Rs g ;; ce <- rd ces g ;; count_cross CT g grp C R ce) gs ;;
  aes <- ReduceTable CT (map s_tab Ss) (fun _ _ rows => reduce_annoy rows) ;;
  mapM (fun g => grp <- rd groups g ;; C <- rd Cs g ;; R <- rd Rs g ;; ee <- rd ees g ;; ce <- rd ces g ;; S <- rd Ss g ;; ae <- rd aes g ;; number_edges CT g grp C R ee ce S ae) gs.
(** redistribution of the topology: classes, vertices, edges.  [V], [EI], [EC] r j = vertices, edges and cross edges of class j of rank r *)
Definition contract_mesh (H : list (list (list nat))) (groups : list (list nat)) (V : list (list (list nat))) (EI EC : list (list (list fedge))) : res (list ceqch * list cverts * list cedges) :=
  Cs <- mapM (BuildCEQCH H groups) (seq 0 (length groups)) ;;
  Rs <- mapM (fun g => grp <- rd groups g ;; C <- rd Cs g ;; map_vertices grp C (map (fun r => nth r V []) grp)) (seq 0 (length groups)) ;;
  Es <- map_edges groups Cs Rs (map (map (fun r => nth r EI [])) groups) (map (map (fun r => nth r EC [])) groups) ;;
  Ret (Cs, Rs, Es).
