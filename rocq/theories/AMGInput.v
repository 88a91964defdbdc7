(** What a valid AMGMatrix object is: which textbook level each of its levels implements, and the sizes of its work
    vectors.  Used in the hypotheses of the theorems about AMGMatrix. *)
From Verif Require Import Base AGroup LinAlg LinTools GSSpec GSModel AMGSpec AMGModel.

Section Input.
  Context {B : Blk}.
  Local Notation vec := (list (X B)).
  (** the model level [lv] consists of the matrix and the transfers of [sl], and of smoothers that honour the smoother
      contract with the corrections C (Smooth) and C' (SmoothBack) of [sl] *)
  Definition realizes (lv : level B) (sl : slevel B) : Prop :=
    lv_A lv = sl_A sl /\ lv_R lv = sl_R sl /\ lv_P lv = sl_P sl /\
    smoother_contract (sl_n sl) (sl_A sl) (sl_C sl) (lv_fw lv) /\
    smoother_contract (sl_n sl) (sl_A sl) (sl_C' sl) (lv_bw lv).
  (** size of level l *)
  Definition sz (nc : nat) (sls : list (slevel B)) (l : nat) : nat := topsize nc (skipn l sls).
  (** one work vector per level, of the size of the level; x and b have the size of the finest level *)
  Record ws_ok (nc : nat) (sls : list (slevel B)) (w : wspace B) : Prop := mkOK {
    ok_x : length (w_x w) = S (length sls); ok_rhs : length (w_rhs w) = S (length sls); ok_res : length (w_res w) = S (length sls);
    okl_x : forall l, l <= length sls -> length (nth l (w_x w) []) = sz nc sls l;
    okl_rhs : forall l, l <= length sls -> length (nth l (w_rhs w) []) = sz nc sls l;
    okl_res : forall l, l <= length sls -> length (nth l (w_res w) []) = sz nc sls l;
    okl_ux : length (w_ux w) = sz nc sls 0; okl_ub : length (w_ub w) = sz nc sls 0 }.
  (** the operator applied on the coarsest level: the coarse inverse, or zero if there is none *)
  Definition coarse_solve (a : AMGMatrix B) (nc : nat) : vec -> vec :=
    match am_crs a with Some (Some inv) => inv | _ => fun _ => vzero nc end.
  Record amg_ok (a : AMGMatrix B) (nc : nat) (sls : list (slevel B)) : Prop := mkAOK {
    ao_levels : Forall2 realizes (am_levels a) sls;
    ao_lin : linear_levels nc (coarse_solve a nc) sls }.
End Input.
