(** Specification vocabulary for smoothers, independent of the smoother models. *)
From Verif Require Import Base AGroup LinAlg LinTools.

Section Spec.
  Context {B : Blk}.
  Local Notation vec := (list (X B)).

  (** What the caller promises when calling Smooth(x, b, res, res_updated, update_res, x_zero):
      if res_updated then res = b - A x; if x_zero then x = 0 (base_smoother.hpp:66-71). *)
  Definition flags_ok (n : nat) (A : vec -> vec) (x b res : vec) (res_updated x_zero : bool) : Prop :=
    length x = n /\ length b = n /\ length res = n /\
    (res_updated = true -> res = residual A b x) /\ (x_zero = true -> x = vzero n).

  (** "One call of the smoother is the iteration x <- x + C (b - A x), whatever the flags, and if update_res is set
      the residual handed back is the residual of the new x." *)
  Definition smoother_contract (n : nat) (A C : vec -> vec)
    (smooth : vec -> vec -> vec -> bool -> bool -> bool -> vec * vec) : Prop :=
    forall x b res res_updated update_res x_zero,
      flags_ok n A x b res res_updated x_zero ->
      let (x', res') := smooth x b res res_updated update_res x_zero in
      x' = x +v C (residual A b x) /\
      length res' = n /\
      (update_res = true -> res' = residual A b x').

  (** ordered scalars *)
  Record KOrder (le : K B -> K B -> Prop) : Prop := mkKOrder {
    ko_refl : forall a, le a a;
    ko_trans : forall a b c, le a b -> le b c -> le a c;
    ko_add : forall a b c, le a b -> le (kadd a c) (kadd b c) }.
End Spec.
