(** Independent description of the coarse mesh data of the elasticity energy (C77). *)
From Verif Require Import Base AuxSpec CDataSpec EnergyModel EnergySpec.
Local Open Scope nat_scope.

Section Spec.
  Context {F : Fld}.
  Local Notation K := (FK F). Local Notation mat := (@mat F). Local Notation vdata := (@vdata F). Local Notation fvec := (@fvec F).
  Local Open Scope fld_scope.
  Variable d3 : bool.
  Let n := DPV d3.

  Definition fsumf {A} (f : A -> K) (l : list A) : K := fold_right (fun a s => f a + s) f0 l.
  (** x^T W x *)
  Definition quad (W : mat) (x : fvec) : K := ip n (mv n W x) x.
  (** the matrix taking degrees of freedom at vertex v to those at vertex w *)
  Definition Qto (v w : vdata) : mat := Qmat d3 (GetQiToj v w).

  (** the energy of an edge: both values are taken to the midpoint of the edge, their difference is measured with E *)
  Definition jump (va vb : vdata) (ua ub : fvec) : fvec :=
    vminus (mv n (Qto va (CalcMPData va vb)) ua) (mv n (Qto vb (CalcMPData va vb)) ub).
  Definition edge_quad (E : mat) (va vb : vdata) (ua ub : fvec) : K := quad E (jump va vb ua ub).

  (** the fine vector belonging to a coarse one: the rigid body motion given by the value at the coarse vertex; 0 if not mapped *)
  Definition extend (vmap : list Z) (cd fd : nat -> vdata) (U : nat -> fvec) (v : nat) : fvec :=
    match target vmap v with Some A => mv n (Qto (cd A) (fd v)) (U A) | None => fun _ => f0 end.

  (** v and w sit at the same place with the same scaling *)
  Definition same_place (v w : vdata) : Prop := (forall i, pos v i = pos w i) /\ rsc v = rsc w.
End Spec.
