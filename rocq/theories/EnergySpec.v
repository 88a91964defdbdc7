(** Specification vocabulary for the elasticity energy: matrices compared entrywise, the transformation matrix Q written
    with the cross product, rigid body modes. *)
From Coq Require Import List Arith Lia Bool Ring Field.
From Verif Require Import EnergyModel.

(** exact arithmetic: a field, a correct equality test *)
Record FldLaws (F : Fld) : Prop := mkFldLaws {
  law_field : field_theory (@f0 F) f1 fadd fmul fsub fopp fdiv finv eq;
  law_eqb : forall x y : FK F, feqb x y = true <-> x = y
}.

Section Spec.
  Context {F : Fld}.
  Local Notation K := (FK F).
  Local Open Scope fld_scope.

  (** equal as n x n matrices; symmetric; matrix times vector; inner product *)
  Definition meq (n : nat) (A B : @mat F) : Prop := forall i j, i < n -> j < n -> A i j = B i j.
  Definition veq (n : nat) (x y : @fvec F) : Prop := forall i, i < n -> x i = y i.
  Definition symm (n : nat) (A : @mat F) : Prop := meq n A (mtr A).
  Definition mv (n : nat) (A : @mat F) (x : @fvec F) : @fvec F := fun i => fsum n (fun j => A i j * x j).
  Definition ip (n : nat) (x y : @fvec F) : K := fsum n (fun i => x i * y i).
  Definition ident : @mat F := fun i j => if i =? j then f1 else f0.

  (** w x p: in 3D the cross product, in 2D the rotation by the scalar w *)
  Definition cross (d3 : bool) (w p : @fvec F) : @fvec F := fun i =>
    if d3 then match i with
               | 0 => w 1%nat * p 2%nat - w 2%nat * p 1%nat
               | 1 => w 2%nat * p 0 - w 0 * p 2%nat
               | _ => w 0 * p 1%nat - w 1%nat * p 0
               end
    else match i with 0 => - (w 0 * p 1%nat) | _ => w 0 * p 0 end.

  Definition unit (j : nat) : @fvec F := fun i => if i =? j then f1 else f0.

  (** Q = ( I  [w |-> w x t] ; 0  s*I ) *)
  Definition Qof (d3 : bool) (s : K) (t : @fvec F) : @mat F := fun i j =>
    let d := DISP d3 in
    if i <? d then (if j <? d then ident i j else cross d3 (unit (j - d)) t i)
    else (if j <? d then f0 else s * ident i j).
  Definition Qmat (d3 : bool) (q : @TQ F) : @mat F := Qof d3 (rs q) (tang q).

  (** values of the rigid body mode x |-> a + w x x in the degrees of freedom of a vertex at p with rotation scaling s:
      displacement a + w x p, rotation w / s *)
  Definition rigid (d3 : bool) (a w p : @fvec F) (s : K) : @fvec F := fun i =>
    if i <? DISP d3 then a i + cross d3 w p i else w (i - DISP d3)%nat / s.
  Definition rigid_at (d3 : bool) (a w : @fvec F) (v : @vdata F) : @fvec F := rigid d3 a w (pos v) (rsc v).

  (** rotation scalings an edge can be treated with: non-zero, with square roots whose sum is not zero
      (for doubles: any positive scaling) *)
  Definition scalings_ok (si sj : K) : Prop :=
    fsqrt si * fsqrt si = si /\ fsqrt sj * fsqrt sj = sj /\ si <> f0 /\ sj <> f0 /\ fsqrt si + fsqrt sj <> f0.
End Spec.
