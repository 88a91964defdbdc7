(** Specification vocabulary for DOF maps (independent of how the transfers are computed). *)
From Verif Require Import Base ArraysModel LinAlg SparseModel SparseSpec MergeModel DofMapModel.
Open Scope nat_scope.

Section Spec.
  Context {B : Blk}.
  Notation mat := (smat (M B)).
  Notation step := (@step B).
  (** n x m matrix with strictly ascending columns in every row; sizes fit into a C++ int *)
  Record good_mat (n m : nat) (A : mat) : Prop := mkGood {
    gm_rows : length A = n; gm_width : width_ok m A; gm_sorted : forall r, In r A -> StronglySorted lt (cols r);
    gm_n : (Z.of_nat n <= INT_MAX)%Z; gm_m : (Z.of_nat m <= INT_MAX)%Z }.
  (** T is the m x n transpose of the n x m matrix P *)
  Definition transposed (n m : nat) (P T : mat) : Prop :=
    length T = m /\ width_ok n T /\ forall i k, i < m -> k < n -> entry T i k = mtr (@entry B P k i).
  (** [step_ok fin n m st]: st is a map from n fine to m coarse dofs.  fin = true: additionally it has been finalised
      (the transposes and the temporary vectors exist). *)
  Inductive step_ok (fin : bool) : nat -> nat -> step -> Prop :=
  | ok_prol n m P PT : good_mat n m P -> (forall T, PT = Some T -> transposed n m P T) -> (fin = true -> PT <> None) -> step_ok fin n m (Prol m P PT)
  | ok_conc n m subs bufs : subs <> [] -> chain_ok fin n m subs -> (forall b, bufs = Some b -> S (length b) = length subs) ->
      (fin = true -> 1 < length subs -> bufs <> None) -> step_ok fin n m (Conc subs bufs)
  | ok_multi n m s t : step_ok fin n m s -> others_ok fin t -> step_ok fin n m (Multi (s :: t))
  (** steps that fit together: the coarse side of each is the fine side of the next one *)
  with chain_ok (fin : bool) : nat -> nat -> list step -> Prop :=
  | ok_nil n : chain_ok fin n n []
  | ok_cons n k m s t : step_ok fin n k s -> chain_ok fin k m t -> chain_ok fin n m (s :: t)
  with others_ok (fin : bool) : list step -> Prop :=
  | ok_onil : others_ok fin []
  | ok_ocons n m s t : step_ok fin n m s -> others_ok fin t -> others_ok fin (s :: t).
End Spec.
Scheme step_ok_mut := Induction for step_ok Sort Prop with chain_ok_mut := Induction for chain_ok Sort Prop with others_ok_mut := Induction for others_ok Sort Prop.
Combined Scheme step_ok_ind3 from step_ok_mut, chain_ok_mut, others_ok_mut.

Section Grouping.
  Context {B : Blk}.
  Variable concatenate : @step B -> @step B -> res (option (@step B)).
  (** [merges s g r]: r is s with the steps of g concatenated to it one after the other *)
  Inductive merges : step -> list step -> step -> Prop :=
  | mg_nil s : merges s [] s
  | mg_cons s t c rest r : concatenate s t = Ret (Some c) -> merges c rest r -> merges s (t :: rest) r.
  (** [grouping steps subs]: the list [steps] is cut into groups, each group is merged into one element of [subs], and no
      merged group can be concatenated with the step after it *)
  Inductive grouping : list step -> list step -> Prop :=
  | gr_nil : grouping [] []
  | gr_cons s g r rest subs : merges s g r -> (forall t, hd_error rest = Some t -> concatenate r t = Ret None) ->
      grouping rest subs -> grouping (s :: g ++ rest) (r :: subs).
End Grouping.
