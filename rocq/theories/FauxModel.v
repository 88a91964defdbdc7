(** Model of FacetAuxiliaryInformation, /repo/src/base/ngs_extension/facet_aux_info.cpp:6-137, facet_aux_info.hpp:57-87, all ranks at once.

    What the mesh and the space are asked for (NGSolve, not part of /repo) is given: the elements of every rank with their potential-space nodes (2d: vertices, 3d: edges) and facets, whether the space is defined on the element,
    and global numbers that say which nodes of two ranks are the same.  MeshAccess::AllReduceNodalData with logical or is [all_or]: 1 if the node is marked on any rank that has it, 0 otherwise.
    Simplification: all ranks agree on whether the space has a definedon; size_t(-1) and int -1 are both -1 (the code compares an entry of the size_t arrays with -1). *)
From Verif Require Import Base EQCModel ReduceModel.
Local Open Scope nat_scope.

(** an element: is the space defined on it? its potential-space nodes, its facets *)
Record felem := mkFE { fe_def : bool; fe_psn : list nat; fe_fac : list nat }.
(** the mesh of a rank: elements, number of potential-space nodes, of facets; global numbers of elements, potential-space nodes, facets *)
Record frank := mkFR { fr_els : list felem; fr_npsn : nat; fr_nfac : nat; fr_gel : list nat; fr_gpsn : list nat; fr_gfac : list nat }.
(** the information of a rank, facet_aux_info.hpp:43-54 *)
Record faux := mkFA { have_maps : bool; n_el_rel : nat; a2r_el : list Z; r2a_el : list nat; n_psn_rel : nat; a2r_psn : list Z; r2a_psn : list nat;
  n_facet_rel : nat; a2r_facet : list Z; r2a_facet : list nat; rel_facets : list bool }.

(** countSubsetMarks, facet_aux_info.cpp:6-15 *)
Definition countSubsetMarks (all2Sub : list Z) : nat := fold_left (fun n x => if (x =? 0)%Z then n else S n) all2Sub 0.
(** markToSubsetMappings, :17-34: (all2Sub, nSub, subToAll) *)
Definition markToSubsetMappings (all2Sub : list Z) : res (list Z * nat * list nat) :=
  foldM (fun '(a, nSub, sub) j => x <- rd a j ;;
      if negb (x =? 0)%Z then a <- wr a j (Z.of_nat nSub) ;; sub <- wr sub nSub j ;; Ret (a, S nSub, sub)
      else a <- wr a j (-1)%Z ;; Ret (a, nSub, sub)) (seq 0 (length all2Sub)) (all2Sub, 0, repeat 0 (countSubsetMarks all2Sub)).
(** marks of elements and potential-space nodes, :67-90 *)
Definition mark_els (R : frank) : res (list Z * list Z) :=
  foldM (fun '(ae, ap) nr => e <- rd (fr_els R) nr ;;
      if fe_def e then ae <- wr ae nr 1%Z ;; ap <- foldM (fun ap j => wr ap j 1%Z) (fe_psn e) ap ;; Ret (ae, ap) else Ret (ae, ap))
    (seq 0 (length (fr_els R))) (repeat 0%Z (length (fr_els R)), repeat 0%Z (fr_npsn R)).
(** facets of the elements on which the space is defined, :115-121 *)
Definition mark_facets (R : frank) : res (list bool) :=
  foldM (fun b e => if fe_def e then foldM (fun b f => wr b f true) (fe_fac e) b else Ret b) (fr_els R) (repeat false (fr_nfac R)).
(** AllReduceNodalData with NG_MPI_LOR *)
Definition all_or (ids : list (list nat)) (marks : list (list Z)) : list (list Z) :=
  map (fun r => map (fun k => if existsb (fun r' => existsb (fun k' => (nth k' (nth r' ids []) 0 =? nth k (nth r ids []) 0) && negb (nth k' (nth r' marks []) 0 =? 0)%Z) (seq 0 (length (nth r' marks [])))) (seq 0 (length marks)) then 1%Z else 0%Z)
    (seq 0 (length (nth r marks [])))) (seq 0 (length marks)).
(** setup, :47-137 (bits of rel_facets set again at :136-137: numbers below n_facet_rel) *)
Definition setup (definedon : bool) (Rs : list frank) : res (list faux) :=
  els <- (if definedon then
            marks <- mapM mark_els Rs ;;
            E <- mapM markToSubsetMappings (all_or (map fr_gel Rs) (map fst marks)) ;;
            P <- mapM markToSubsetMappings (all_or (map fr_gpsn Rs) (map snd marks)) ;;
            Ret (combine E P)
          else Ret (map (fun R => (([], length (fr_els R), []), ([], fr_npsn R, []))) Rs)) ;;
  bits <- mapM mark_facets Rs ;;
  F <- mapM markToSubsetMappings (all_or (map fr_gfac Rs) (map (map (fun b : bool => if b then 1%Z else 0%Z)) bits)) ;;
  mapM (fun r => ' (ae, ne, re, (ap, np, rp)) <- rd els r ;; ' (af, nf, rf) <- rd F r ;; b <- rd bits r ;;
      b <- foldM (fun b k => wr b k true) (seq 0 nf) b ;;
      Ret (mkFA definedon ne ae re np ap rp nf af rf b)) (seq 0 (length Rs)).

(** facet_aux_info.hpp:61-87 *)
Definition IsElementRel (f : faux) (k : nat) : res bool := if have_maps f then x <- rd (a2r_el f) k ;; Ret (negb (x =? -1)%Z) else Ret true.
Definition A2R_EL (f : faux) (k : nat) : res Z := if have_maps f then rd (a2r_el f) k else Ret (Z.of_nat k).
Definition R2A_EL (f : faux) (k : nat) : res nat := if have_maps f then rd (r2a_el f) k else Ret k.
Definition IsPSNRel (f : faux) (k : nat) : res bool := if have_maps f then x <- rd (a2r_psn f) k ;; Ret (negb (x =? -1)%Z) else Ret true.
Definition A2R_PSN (f : faux) (k : nat) : res Z := if have_maps f then rd (a2r_psn f) k else Ret (Z.of_nat k).
Definition R2A_PSN (f : faux) (k : nat) : res nat := if have_maps f then rd (r2a_psn f) k else Ret k.
Definition IsFacetRel (f : faux) (k : nat) : res bool := rd (rel_facets f) k.
Definition A2R_Facet (f : faux) (k : nat) : res Z := rd (a2r_facet f) k.
Definition R2A_Facet (f : faux) (k : nat) : res nat := rd (r2a_facet f) k.
