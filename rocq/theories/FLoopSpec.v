(** What C107 says *)
From Verif Require Import Base FLoopModel.
Local Open Scope nat_scope.

(** facet [f] of the rank is active, its first dof is free, it touches node [v] *)
Definition active (M : lrank) (f : nat) : Prop := nth_error (lr_active M) f = Some true.
Definition free_facet (M : lrank) (f : nat) : Prop :=
  match lr_free M with Some free => exists d rest, nth_error (lr_fdofs M) f = Some (Z.of_nat d :: rest) /\ nth_error free d = Some true | None => True end.
Definition touches (M : lrank) (f v : nat) : Prop := exists vs, nth_error (lr_fnodes M) f = Some vs /\ In v vs.
(** no rank with the facet comes before this one *)
Definition lowest (M : lrank) (f : nat) : Prop := exists dps, nth_error (lr_fdps M) f = Some dps /\ forall p, In p dps -> lr_rank M < p.

(** a mesh that fits together: facets belong to volume elements that have their nodes; surface elements consist of facets that contain all their nodes; active facets have dofs *)
Record mesh_ok (M : lrank) (nf : nat) : Prop := {
  mk_fn : length (lr_fnodes M) = nf; mk_fd : length (lr_fdps M) = nf; mk_fo : length (lr_fdofs M) = nf; mk_ac : length (lr_active M) = nf;
  mk_2d : lr_2d M = true -> forall vs, In vs (lr_fnodes M) -> length vs = 2;
  mk_fac : forall e f, In e (lr_els M ++ lr_sels M) -> In f (le_fac e) -> f < nf;
  mk_own : forall f, f < nf -> exists e, In e (lr_els M) /\ In f (le_fac e) /\ forall v, touches M f v -> In v (le_nodes e);
  mk_sel : forall e f v, In e (lr_sels M) -> In f (le_fac e) -> In v (le_nodes e) -> touches M f v;
  mk_dps : forall dps, In dps (lr_fdps M) -> StronglySorted lt dps;
  mk_dof : forall f free, lr_free M = Some free -> active M f -> exists d rest, nth_error (lr_fdofs M) f = Some (Z.of_nat d :: rest) /\ d < length free }.

(** [l] lists the facets of [M] with the property [P], each once, in increasing order *)
Definition lists (P : nat -> Prop) (l : list Z) : Prop := StronglySorted Z.lt l /\ forall x, In x l <-> exists f, x = Z.of_nat f /\ P f.
(** the facets the rank puts into the loop of node [v] *)
Definition loop_facet (M : lrank) (v f : nat) : Prop := active M f /\ free_facet M f /\ touches M f v /\ lowest M f.

(** a distributed mesh: rank [r] has the facets with the global numbers [gf r] and the nodes [gn r]; the ranks know which of them have the facet; on each the facet touches the same nodes *)
Record dist_ok (Ms : list lrank) (gf gn : nat -> list nat) : Prop := {
  do_ok : forall r M, nth_error Ms r = Some M -> lr_rank M = r /\ mesh_ok M (length (gf r));
  do_nodup : forall r, NoDup (gf r);
  do_ndn : forall r, NoDup (gn r);
  do_dps : forall r M f dps, nth_error Ms r = Some M -> nth_error (lr_fdps M) f = Some dps -> forall p, In p dps <-> p <> r /\ p < length Ms /\ In (nth f (gf r) 0) (gf p);
  do_touch : forall r r' M M' f f' v, nth_error Ms r = Some M -> nth_error Ms r' = Some M' -> nth_error (gf r) f = nth_error (gf r') f' -> nth_error (gf r) f <> None -> touches M f v -> exists v', touches M' f' v' /\ nth_error (gn r) v = nth_error (gn r') v' /\ nth_error (gn r) v <> None }.
(** rank [r] has the facet with global number [F] in the loop of the node with global number [V] *)
Definition in_loop (Ms : list lrank) (gf gn : nat -> list nat) (F V r : nat) : Prop :=
  exists M f v l, nth_error Ms r = Some M /\ nth_error (gf r) f = Some F /\ nth_error (gn r) v = Some V /\ facetLoop M v = Ret l /\ In (Z.of_nat f) l.
