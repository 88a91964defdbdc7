(** Model of the fine facet loops, /repo/src/stokes/common/stokes_pc.cpp:168-328: the facets around a potential-space node (2d: vertex, 3d: edge) that a rank contributes to the loop of the node.

    What NGSolve answers is given: elements and surface elements with their nodes (2d: vertices, 3d: edges) and facets, the nodes of a facet, the other ranks that have a facet, the dofs of a facet and the free dofs.
    GetVertexElements / GetEdgeElements / GetVertexSurfaceElements / GetEdgeSurfaceElements are the elements that have the node.  The set of active facets (FacetAuxiliaryInformation::IsFacetRel, FauxModel.v) is a list of bits.
    facetEls (read only for debugging) is left out; the facet loop tables that the callback builds are not part of this model. *)
From Verif Require Import Base EQCModel ArraysModel.
Local Open Scope nat_scope.

(** an element: its potential-space nodes, its facets *)
Record lel := mkLE { le_nodes : list nat; le_fac : list nat }.
(** the mesh of a rank: dimension 2 or 3; volume elements, surface elements, the nodes of every facet, the other ranks that have the facet, the dofs of the facet; free dofs (None: all are free); active facets *)
Record lrank := mkLR { lr_2d : bool; lr_rank : nat; lr_els : list lel; lr_sels : list lel; lr_fnodes : list (list nat); lr_fdps : list (list nat);
  lr_fdofs : list (list Z); lr_free : option (list bool); lr_active : list bool }.

(** elements that have the node *)
Definition node_els (els : list lel) (v : nat) : list nat := filter (fun k => existsb (Nat.eqb v) (le_nodes (nth k els (mkLE [] [])))) (seq 0 (length els)).
(** masterOfFacet, stokes_pc.cpp:168-172 *)
Definition masterOfFacet (M : lrank) (f : nat) : res bool :=
  dps <- rd (lr_fdps M) f ;; if length dps =? 0 then Ret true else d <- rd dps 0 ;; Ret (lr_rank M <? d).
(** isFree of iterateFacetLoops, :291-298 *)
Definition isFree (M : lrank) (f : nat) : res bool :=
  match lr_free M with
  | Some free => dofs <- rd (lr_fdofs M) f ;; d <- rd dofs 0 ;; if (d <? 0)%Z then Err OutOfBounds else rd free (Z.to_nat d)
  | None => Ret true
  end.
Definition relFacet (M : lrank) (f : nat) : res bool := rd (lr_active M) f.
Definition insertFacet (l : list Z) (f : nat) : res (list Z) := ' (_, l') <- insert_into_sorted_array_nodups (Z.of_nat f) l ;; Ret l'.
(** isFree(f) && masterOfFacet(f, ma), :201, :224, :256, :270 *)
Definition freeMaster (M : lrank) (f : nat) : res bool := a <- isFree M f ;; if (a : bool) then masterOfFacet M f else Ret false.
(** facets of a surface element, :189-203 (2d) and :252-260 (3d) *)
Definition surfFacet (M : lrank) (l : list Z) (f : nat) : res (list Z) :=
  r <- relFacet M f ;; if (r : bool) then b <- freeMaster M f ;; if (b : bool) then insertFacet l f else Ret l else Ret l.
(** facets of a volume element, 2d, :210-229: the two vertices of the facet are compared first *)
Definition volFacet2D (M : lrank) (v : nat) (l : list Z) (f : nat) : res (list Z) :=
  r <- relFacet M f ;;
  if (r : bool) then
    vs <- rd (lr_fnodes M) f ;; v0 <- rd vs 0 ;;
    t <- (if v0 =? v then Ret true else v1 <- rd vs 1 ;; Ret (v1 =? v)) ;;
    if (t : bool) then b <- freeMaster M f ;; if (b : bool) then insertFacet l f else Ret l else Ret l
  else Ret l.
(** the loop over the edges of the facet with its break, :272-276 *)
Fixpoint anyEdge (v f : nat) (es : list nat) (l : list Z) : res (list Z) :=
  match es with [] => Ret l | e :: es => if e =? v then insertFacet l f else anyEdge v f es l end.
(** facets of a volume element, 3d, :266-281 *)
Definition volFacet3D (M : lrank) (v : nat) (l : list Z) (f : nat) : res (list Z) :=
  r <- relFacet M f ;;
  if (r : bool) then b <- freeMaster M f ;; if (b : bool) then es <- rd (lr_fnodes M) f ;; anyEdge v f es l else Ret l else Ret l.
(** makeFacetLoop2D, :175-234, makeFacetLoop3D, :239-292 *)
Definition makeFacetLoop (M : lrank) (volFacet : lrank -> nat -> list Z -> nat -> res (list Z)) (v : nat) : res (list Z) :=
  l <- foldM (fun l s => e <- rd (lr_sels M) s ;; foldM (surfFacet M) (le_fac e) l) (node_els (lr_sels M) v) [] ;;
  foldM (fun l s => e <- rd (lr_els M) s ;; foldM (volFacet M v) (le_fac e) l) (node_els (lr_els M) v) l.
Definition makeFacetLoop2D (M : lrank) := makeFacetLoop M volFacet2D.
Definition makeFacetLoop3D (M : lrank) := makeFacetLoop M volFacet3D.
(** the choice by the dimension, :308-327 *)
Definition facetLoop (M : lrank) (v : nat) : res (list Z) := if lr_2d M then makeFacetLoop2D M v else makeFacetLoop3D M v.
(** iterateFacetLoops, :287-328: the loop of every relevant node, [r2a] = R2A_PSN *)
Definition iterateFacetLoops (M : lrank) (r2a : list nat) : res (list (list Z)) := mapM (facetLoop M) r2a.
