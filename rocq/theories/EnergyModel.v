(** Model of the small dense block operations of the elasticity energy (EpsEpsEnergy): the transformation Q between the
    degrees of freedom of two vertices and the products with it that the coarsening, the auxiliary matrix and the
    prolongations are built from.
    /repo/src/elasticity/elasticity_energy.hpp, elasticity_energy_impl.hpp; FlatMat views: base/utils/utils_denseLA.hpp:378-441.

    Simplifications: doubles are elements of a field with a square root function (no rounding).  A Mat<H,W> is a function of
    two indices of which only i < H, j < W matter.  Both template instances DIM = 2 and DIM = 3 are covered by the boolean [d3].
    static local variables of the code (Mat<..> AQ etc.) are always completely overwritten and modelled as locals. *)
From Coq Require Import List Arith Lia Bool.
Import ListNotations.

(** double: field operations, sqrt, comparison (for "rs != 1.0") *)
Record Fld : Type := mkFld {
  FK : Type; f0 : FK; f1 : FK; fadd : FK -> FK -> FK; fmul : FK -> FK -> FK; fsub : FK -> FK -> FK; fopp : FK -> FK;
  fdiv : FK -> FK -> FK; finv : FK -> FK; fsqrt : FK -> FK; feqb : FK -> FK -> bool
}.
Arguments f0 {_}. Arguments f1 {_}. Arguments fadd {_}. Arguments fmul {_}. Arguments fsub {_}. Arguments fopp {_}.
Arguments fdiv {_}. Arguments finv {_}. Arguments fsqrt {_}. Arguments feqb {_}.

Declare Scope fld_scope.
Delimit Scope fld_scope with F.
Infix "+" := fadd : fld_scope. Infix "*" := fmul : fld_scope. Infix "-" := fsub : fld_scope. Infix "/" := fdiv : fld_scope.
Notation "- x" := (fopp x) : fld_scope.

Section Energy.
  Context {F : Fld}.
  Local Notation K := (FK F).
  Local Open Scope fld_scope.

  (** Mat<H,W,double>; Vec<DIM,double> *)
  Definition mat := nat -> nat -> K.
  Definition fvec := nat -> K.

  Fixpoint fsum (n : nat) (f : nat -> K) : K := match n with O => f0 | S m => fsum m f + f m end.
  (** dense expressions (ngbla): M(i,j) = v, A + B, c * A, Trans(A), A * B with inner dimension n *)
  Definition set (M : mat) (i j : nat) (v : K) : mat := fun a b => if (a =? i) && (b =? j) then v else M a b.
  Definition madd (A B : mat) : mat := fun i j => A i j + B i j.
  Definition msc (c : K) (A : mat) : mat := fun i j => c * A i j.
  Definition mtr (A : mat) : mat := fun i j => A j i.
  Definition mmul (n : nat) (A B : mat) : mat := fun i j => fsum n (fun k => A i k * B k j).
  Definition mzero : mat := fun _ _ => f0.
  Definition vscal (c : K) (x : fvec) : fvec := fun i => c * x i.
  Definition vminus (x y : fvec) : fvec := fun i => x i - y i.
  Definition vplus (x y : fvec) : fvec := fun i => x i + y i.

  (** Iterate<N>([&](auto i) { ... }) *)
  Definition iter (n : nat) (f : nat -> mat -> mat) (M : mat) : mat := fold_left (fun M i => f i M) (seq 0 n) M.

  (** FlatMat<IMIN,H,JMIN,W>(M): reading a block; assigning / adding to a block. utils_denseLA.hpp:378-441 *)
  Definition sub (i0 j0 : nat) (M : mat) : mat := fun i j => M (i0 + i)%nat (j0 + j)%nat.
  Definition inblk (i0 h j0 w i j : nat) : bool := (i0 <=? i) && (i <? i0 + h) && ((j0 <=? j) && (j <? j0 + w)).
  Definition put (i0 h j0 w : nat) (M B : mat) : mat :=
    fun i j => if inblk i0 h j0 w i j then B (i - i0)%nat (j - j0)%nat else M i j.
  Definition putadd (i0 h j0 w : nat) (M B : mat) : mat :=
    fun i j => if inblk i0 h j0 w i j then M i j + B (i - i0)%nat (j - j0)%nat else M i j.

  Section Dim.
  (** DIM == 3 (true) or DIM == 2 (false). elasticity_energy.hpp:23-28 *)
  Variable d3 : bool.
  Definition DISP : nat := if d3 then 3 else 2.
  Definition ROT : nat := if d3 then 3 else 1.
  Definition DPV : nat := if d3 then 6 else 3.

  (** vertex data: position, weight matrix, rotation scaling. elasticity_mesh.hpp:20-36 *)
  Record vdata : Type := mkVD { pos : fvec; wt : mat; rsc : K }.
  (** class TQ. elasticity_energy.hpp:30-62 *)
  Record TQ : Type := mkTQ { rs : K; tang : fvec }.

  (** elasticity_energy.hpp:52-56 *)
  Definition TQ_ctor (vi vj : vdata) : TQ := mkTQ (rsc vi / rsc vj) (vscal (rsc vi) (vminus (pos vj) (pos vi))).

  (** elasticity_energy.hpp:66-86 *)
  Definition GetQijQji (vi vj : vdata) : TQ * TQ :=
    let sqi := fsqrt (rsc vi) in
    let sqj := fsqrt (rsc vj) in
    let sMid := sqi * sqj in
    let lambda := sqj / (sqi + sqj) in
    let tij := vminus (pos vj) (pos vi) in
    let tim := vscal lambda tij in
    let tjm := vscal (lambda - f1) tij in
    (mkTQ (rsc vi / sMid) (vscal (rsc vi) tim), mkTQ (rsc vj / sMid) (vscal (rsc vj) tjm)).

  (** elasticity_energy.hpp:88-103 *)
  Definition GetQij (vi vj : vdata) : TQ :=
    let sqi := fsqrt (rsc vi) in
    let sqj := fsqrt (rsc vj) in
    let sMid := sqi * sqj in
    let lambda := sqj / (sqi + sqj) in
    let tim := vscal lambda (vminus (pos vj) (pos vi)) in
    mkTQ (rsc vi / sMid) (vscal (rsc vi) tim).

  (** elasticity_energy.hpp:105-112 *)
  Definition GetQiToj (vi vj : vdata) : TQ :=
    let tij := vminus (pos vj) (pos vi) in
    mkTQ (rsc vi / rsc vj) (vscal (rsc vi) tij).

  (** TT::SetSkT, assigning into the block view of E that starts at row i0, column j0. elasticity_energy.hpp:129-151 *)
  Definition SetSkT (t : fvec) (i0 j0 : nat) (E : mat) : mat :=
    let st i j v M := set M (i0 + i)%nat (j0 + j)%nat v in
    if negb d3 then st 1 0 (t 0) (st 0 0 (- t 1%nat) E)
    else
      let E := st 2 2 f0 (st 1 1 f0 (st 0 0 f0 E)) in
      let E := st 1 0 (- t 2%nat) (st 0 1 (t 2%nat) E) in
      let E := st 0 2 (- t 1%nat) (st 2 0 (t 1%nat) E) in
      st 2 1 (- t 0) (st 1 2 (t 0) E).

  (** TT::CalcMT: M * T. elasticity_energy.hpp:154-189 (the N rows are computed independently of each other) *)
  Definition CalcMT (t : fvec) (M : mat) : mat := fun l c =>
    if negb d3 then t 0 * M l 1 - t 1 * M l 0
    else match c with
         | 0 => t 1 * M l 2 - t 2 * M l 1
         | 1 => t 2 * M l 0 - t 0 * M l 2
         | _ => t 0 * M l 1 - t 1 * M l 0
         end.

  (** TT::CalcTTM: T^T * M. elasticity_energy.hpp:191-226 *)
  Definition CalcTTM (t : fvec) (M : mat) : mat := fun c l =>
    if negb d3 then t 0 * M 1 l - t 1 * M 0 l
    else match c with
         | 0 => t 1 * M 2 l - t 2 * M 1 l
         | 1 => t 2 * M 0 l - t 0 * M 2 l
         | _ => t 0 * M 1 l - t 1 * M 0 l
         end.

  (** TT::CalcTTMSymm: upper triangle computed, lower mirrored. elasticity_energy.hpp:228-266 *)
  Definition CalcTTMSymm (t : fvec) (A_T : mat) (R : mat) : mat :=
    if negb d3 then set R 0 0 (t 0 * A_T 1 0 - t 1 * A_T 0 0)
    else
      let R := iter 3 (fun l R => set R 0 l (t 1 * A_T 2 l - t 2 * A_T 1 l)) R in
      let R := set R 1 0 (R 0 1)%nat in
      let R := iter 2 (fun ll R => let l := (ll + 1)%nat in set R 1 l (t 2 * A_T 0 l - t 0 * A_T 2 l)) R in
      let R := set R 2 0 (R 0 2)%nat in
      let R := set R 2 1 (R 1 2)%nat in
      set R 2 2 (t 0 * A_T 1 2 - t 1 * A_T 0 2).

  (** TT::CalcTTAT. elasticity_energy.hpp:269-286 *)
  Definition CalcTTAT (t : fvec) (A : mat) : mat * mat :=
    let A_T := CalcMT t A in
    (A_T, CalcTTMSymm t A_T mzero).

  (** TT::CalcTM. elasticity_energy.hpp:289-335 *)
  Definition CalcTM (t : fvec) (M : mat) : mat := fun r l =>
    if negb d3 then match r with 0 => - t 1 * M 0 l | _ => t 0 * M 0 l end
    else match r with
         | 0 => t 1 * M 2 l - t 2 * M 1 l
         | 1 => t 2 * M 0 l - t 0 * M 2 l
         | _ => t 0 * M 1 l - t 1 * M 0 l
         end.

  (** TT::CalcMTT. elasticity_energy.hpp:337-380 *)
  Definition CalcMTT (t : fvec) (M : mat) : mat := fun l c =>
    if negb d3 then match c with 0 => - t 1 * M l 0 | _ => t 0 * M l 0 end
    else match c with
         | 0 => t 2 * M l 1 - t 1 * M l 2
         | 1 => t 0 * M l 2 - t 2 * M l 0
         | _ => t 1 * M l 0 - t 0 * M l 1
         end.

  (** TT::CalcMTTSymm; [R] is the (uninitialised) result matrix on entry. elasticity_energy.hpp:382-424 *)
  Definition CalcMTTSymm (t : fvec) (T_M : mat) (R : mat) : mat :=
    if negb d3 then
      let R := set R 0 0 (- t 1 * T_M 0 0) in
      let R := set R 0 1 (t 0 * T_M 0 0) in
      let R := set R 1 0 (R 0 1)%nat in
      set R 1 1 (t 0 * T_M 1 0)
    else
      let R := iter 3 (fun l R => set R l 0 (t 2 * T_M l 1 - t 1 * T_M l 2)) R in
      let R := set R 0 1 (R 1 0)%nat in
      let R := set R 1 1 (t 0 * T_M 1 2 - t 2 * T_M 1 0) in
      let R := set R 2 1 (t 0 * T_M 2 2 - t 2 * T_M 2 0) in
      let R := set R 0 2 (R 2 0)%nat in
      let R := set R 1 2 (R 2 1)%nat in
      set R 0 2 (t 1 * T_M 1 0 - t 0 * T_M 2 1).

  (** TT::CalcTRTT. elasticity_energy.hpp:426-444 *)
  Definition CalcTRTT (t : fvec) (R G : mat) : mat * mat :=
    let T_R := CalcTM t R in
    (T_R, CalcMTTSymm t T_R G).

  (** TQ::SetQ(alpha, E). elasticity_energy.hpp:449-490 *)
  Definition SetQa (q : TQ) (alpha : K) (E : mat) : mat :=
    let E := iter DPV (fun ii E => iter DISP (fun jj E => set E ii jj (if ii =? jj then alpha else f0)) E) E in
    let E := SetSkT (tang q) 0 DISP E in
    iter ROT (fun ii E => iter ROT (fun jj E =>
      set E (DISP + ii)%nat (DISP + jj)%nat (if ii =? jj then alpha * rs q else f0)) E) E.
  (** TQ::SetQ(E). elasticity_energy.hpp:492-497 *)
  Definition SetQ (q : TQ) (E : mat) : mat := SetQa q f1 E.

  (** TQ::MQ(E), in place. elasticity_energy.hpp:499-521 *)
  Definition MQ (q : TQ) (E : mat) : mat :=
    let E := if negb (feqb (rs q) f1) then put 0 DPV DISP ROT E (msc (rs q) (sub 0 DISP E)) else E in
    let AC_T := CalcMT (tang q) (sub 0 0 E) in
    putadd 0 DPV DISP ROT E AC_T.
  (** TQ::MQ(scal, E, E_Q), GetMQ. elasticity_energy.hpp:523-539 *)
  Definition GetMQ (q : TQ) (scal : K) (E : mat) : mat := MQ q (msc scal E).

  (** TQ::QTM(E), in place. elasticity_energy.hpp:541-563 *)
  Definition QTM (q : TQ) (E : mat) : mat :=
    let E := if negb (feqb (rs q) f1) then put DISP ROT 0 DPV E (msc (rs q) (sub DISP 0 E)) else E in
    let TT_AB := CalcTTM (tang q) (sub 0 0 E) in
    putadd DISP ROT 0 DPV E TT_AB.
  (** elasticity_energy.hpp:565-581 *)
  Definition GetQTM (q : TQ) (scal : K) (E : mat) : mat := QTM q (msc scal E).

  (** TQ::QTMQ(E), in place. elasticity_energy.hpp:583-617 *)
  Definition QTMQ (q : TQ) (E : mat) : mat :=
    let '(A_T, TT_A_T) := CalcTTAT (tang q) (sub 0 0 E) in
    let r_TT_B := CalcTTM (tang q) (sub 0 DISP E) in
    let neq1 := negb (feqb (rs q) f1) in
    let E := if neq1 then put DISP ROT DISP ROT E (msc (rs q * rs q) (sub DISP DISP E)) else E in
    let E := if neq1 then put 0 DISP DISP ROT E (msc (rs q) (sub 0 DISP E)) else E in
    let r_TT_B := if neq1 then msc (rs q) r_TT_B else r_TT_B in
    let E := putadd 0 DISP DISP ROT E A_T in
    let E := put DISP ROT 0 DISP E (mtr (sub 0 DISP E)) in
    putadd DISP ROT DISP ROT E (madd (madd TT_A_T r_TT_B) (mtr r_TT_B)).
  (** elasticity_energy.hpp:619-635 *)
  Definition GetQTMQ (q : TQ) (scal : K) (E : mat) : mat := QTMQ q (msc scal E).

  (** TQ::QMQT(E), in place; [G] stands for the uninitialised local T_C_TT. elasticity_energy.hpp:637-671 *)
  Definition QMQT (q : TQ) (G E : mat) : mat :=
    let '(T_C, T_C_TT) := CalcTRTT (tang q) (sub DISP DISP E) G in
    let B_TT := CalcMTT (tang q) (sub 0 DISP E) in
    let E := putadd 0 DISP DISP ROT E T_C in
    let neq1 := negb (feqb (rs q) f1) in
    let E := if neq1 then put 0 DISP DISP ROT E (msc (rs q) (sub 0 DISP E)) else E in
    let E := if neq1 then put DISP ROT DISP ROT E (msc (rs q * rs q) (sub DISP DISP E)) else E in
    let E := put DISP ROT 0 DISP E (mtr (sub 0 DISP E)) in
    putadd 0 DISP 0 DISP E (madd (madd B_TT (mtr B_TT)) T_C_TT).

  (** CalcRMBlock / CalcRMBlockRow: the four (two) blocks lam(i,j,.) is called with. elasticity_energy.hpp:753-802 *)
  Definition CalcRMBlock (E : mat) (vi vj : vdata) : (mat * mat) * (mat * mat) :=
    let '(Qij, Qji) := GetQijQji vi vj in
    let QijT_E := GetQTM Qij f1 E in
    let QijT_E_Qij := GetMQ Qij f1 QijT_E in
    let QijT_E_Qji := GetMQ Qji (- f1) QijT_E in
    let QjiT_E_Qij := mtr QijT_E_Qji in
    let QjiT_E_Qji := GetQTMQ Qji f1 E in
    ((QijT_E_Qij, QijT_E_Qji), (QjiT_E_Qij, QjiT_E_Qji)).

  (** CalcQ: elasticity_energy_impl.hpp:8-29 *)
  Definition CalcQ (t : fvec) (si sj : K) : mat :=
    let Q := mzero in
    let rscal := si / sj in
    let Q := iter DISP (fun i Q => set Q i i f1) Q in
    let Q := iter ROT (fun i Q => set Q (DISP + i)%nat (DISP + i)%nat rscal) Q in
    if negb d3 then set (set Q 0 2 (- si * t 1%nat)) 1 2 (si * t 0)
    else
      let Q := set Q 2 4 (- si * t 0) in
      let Q := set Q 1 5 (- (Q 2 4)%nat) in
      let Q := set Q 0 5 (- si * t 1%nat) in
      let Q := set Q 2 3 (- (Q 0 5)%nat) in
      let Q := set Q 1 3 (- si * t 2%nat) in
      set Q 0 4 (- (Q 1 3)%nat).

  (** CalcQs / ModQs, CalcInvQs, CalcQij / ModQij, CalcQHh / ModQHh: [G] is the old content of the result.
      elasticity_energy_impl.hpp:53-114, 177-223 *)
  Definition CalcQs (vi vj : vdata) (G1 G2 : mat) : mat * mat :=
    let '(TQij, TQji) := GetQijQji vi vj in (SetQ TQij G1, SetQ TQji G2).
  Definition CalcInvQs (vi vj : vdata) (G1 G2 : mat) : mat * mat :=
    let '(TQij, TQji) := GetQijQji vi vj in (SetQ TQji G1, SetQ TQij G2).
  Definition CalcQij (vi vj : vdata) (G : mat) : mat := SetQ (GetQij vi vj) G.
  Definition CalcQHh (vH vh : vdata) (G : mat) : mat := SetQ (GetQiToj vH vh) G.

  (** CalcMPData (weight of the result: SetScalIdentity(0)). elasticity_energy_impl.hpp:225-259 *)
  Definition CalcMPData (va vb : vdata) : vdata :=
    let sqi := fsqrt (rsc va) in
    let sqj := fsqrt (rsc vb) in
    let lambda := sqj / (sqi + sqj) in
    mkVD (vplus (vscal (f1 - lambda) (pos va)) (vscal lambda (pos vb))) mzero (sqi * sqj).

  (** QtMQ, in place. elasticity_energy.hpp:839-858 *)
  Definition QtMQ (Qij M : mat) : mat :=
    let s := Qij DISP DISP in
    let Q := sub 0 DISP Qij in
    let AQ := mmul DISP (sub 0 0 M) Q in
    let M := put DISP ROT DISP ROT M (msc (s * s) (sub DISP DISP M)) in
    let M := putadd DISP ROT DISP ROT M
               (madd (mmul DISP (mtr Q) (madd AQ (msc s (sub 0 DISP M)))) (mmul DISP (msc s (sub DISP 0 M)) Q)) in
    let M := put 0 DISP DISP ROT M (madd (msc s (sub 0 DISP M)) AQ) in
    put DISP ROT 0 DISP M (mtr (sub 0 DISP M)).
  (** CalcQtMQ. elasticity_energy.hpp:878-883 *)
  Definition CalcQtMQ (Qij M : mat) : mat := QtMQ Qij M.

  (** AddQtMQ. elasticity_energy.hpp:860-876 *)
  Definition AddQtMQ (val : K) (aA Qij M : mat) : mat :=
    let s := Qij DISP DISP in
    let Q := sub 0 DISP Qij in
    let A := sub 0 0 M in let B := sub 0 DISP M in let BT := sub DISP 0 M in let D := sub DISP DISP M in
    let AQpB := madd (mmul DISP A Q) (msc s B) in
    let aA := putadd 0 DISP 0 DISP aA (msc val A) in
    let aA := putadd 0 DISP DISP ROT aA (msc val AQpB) in
    let aA := putadd DISP ROT 0 DISP aA (msc val (mtr AQpB)) in
    putadd DISP ROT DISP ROT aA
      (msc val (madd (madd (mmul DISP (mtr Q) AQpB) (mmul DISP (msc s BT) Q)) (msc (s * s) D))).

  (** SetQtMQ. elasticity_energy.hpp:885-901 *)
  Definition SetQtMQ (val : K) (aA Qij M : mat) : mat :=
    let s := Qij DISP DISP in
    let Q := sub 0 DISP Qij in
    let A := sub 0 0 M in let B := sub 0 DISP M in let BT := sub DISP 0 M in let D := sub DISP DISP M in
    let AQpB := madd (mmul DISP A Q) (msc s B) in
    let aA := put 0 DISP 0 DISP aA (msc val A) in
    let aA := put 0 DISP DISP ROT aA (msc val AQpB) in
    let aA := put DISP ROT 0 DISP aA (msc val (mtr AQpB)) in
    put DISP ROT DISP ROT aA
      (msc val (madd (madd (mmul DISP (mtr Q) AQpB) (mmul DISP BT Q)) (msc (s * s) D))).

  (** CalcMPDataWW. elasticity_energy_impl.hpp:261-272 *)
  Definition CalcMPDataWW (va vb : vdata) (G1 G2 : mat) : vdata :=
    let o := CalcMPData va vb in
    let '(Qij, Qji) := CalcQs va vb G1 G2 in
    let w := SetQtMQ f1 (wt o) Qji (wt va) in
    let w := AddQtMQ f1 w Qij (wt vb) in
    mkVD (pos o) w (rsc o).

  (** CalcMQ. elasticity_energy.hpp:927-940 *)
  Definition CalcMQ (scal : K) (M Q out : mat) : mat :=
    let s := Q DISP DISP in
    let BTQ := mmul DISP (sub DISP 0 M) (sub 0 DISP Q) in
    let AQ := mmul DISP (sub 0 0 M) (sub 0 DISP Q) in
    let out := put 0 DISP 0 DISP out (msc scal (sub 0 0 M)) in
    let out := put 0 DISP DISP ROT out (msc scal (madd (msc s (sub 0 DISP M)) AQ)) in
    let out := put DISP ROT 0 DISP out (msc scal (sub DISP 0 M)) in
    put DISP ROT DISP ROT out (msc scal (madd (msc s (sub DISP DISP M)) BTQ)).

  (** AddMQ. elasticity_energy.hpp:942-955 *)
  Definition AddMQ (scal : K) (M Q out : mat) : mat :=
    let s := Q DISP DISP in
    let BTQ := mmul DISP (sub DISP 0 M) (sub 0 DISP Q) in
    let AQ := mmul DISP (sub 0 0 M) (sub 0 DISP Q) in
    let out := putadd 0 DISP 0 DISP out (msc scal (sub 0 0 M)) in
    let out := putadd 0 DISP DISP ROT out (msc scal (madd (msc s (sub 0 DISP M)) AQ)) in
    let out := putadd DISP ROT 0 DISP out (msc scal (sub DISP 0 M)) in
    putadd DISP ROT DISP ROT out (msc scal (madd (msc s (sub DISP DISP M)) BTQ)).

  (** CalcQTM, AddQTM. elasticity_energy.hpp:957-985.  The code stores Trans(Q) * A, a ROTPV x DISPPV product, in a
      Mat<DISPPV, ROTPV>: this only fits for DIM = 3, so the results below are only stated for DIM = 3 (the functions are not
      called anywhere). *)
  Definition CalcQTM (scal : K) (Q M out : mat) : mat :=
    let s := Q DISP DISP in
    let QTA := mmul DISP (mtr (sub 0 DISP Q)) (sub 0 0 M) in
    let QTB := mmul DISP (mtr (sub 0 DISP Q)) (sub 0 DISP M) in
    let out := put 0 DISP 0 DISP out (msc scal (sub 0 0 M)) in
    let out := put 0 DISP DISP ROT out (msc scal (sub 0 DISP M)) in
    let out := put DISP ROT 0 DISP out (msc scal (madd (msc s (sub DISP 0 M)) QTA)) in
    put DISP ROT DISP ROT out (msc scal (madd (msc s (sub DISP DISP M)) QTB)).
  Definition AddQTM (scal : K) (Q M out : mat) : mat :=
    let s := Q DISP DISP in
    let QTA := mmul DISP (mtr (sub 0 DISP Q)) (sub 0 0 M) in
    let QTB := mmul DISP (mtr (sub 0 DISP Q)) (sub 0 DISP M) in
    let out := putadd 0 DISP 0 DISP out (msc scal (sub 0 0 M)) in
    let out := putadd 0 DISP DISP ROT out (msc scal (sub 0 DISP M)) in
    let out := putadd DISP ROT 0 DISP out (msc scal (madd (msc s (sub DISP 0 M)) QTA)) in
    putadd DISP ROT DISP ROT out (msc scal (madd (msc s (sub DISP DISP M)) QTB)).
  End Dim.
End Energy.
