(** What C108 says *)
From Verif Require Import Base PrtModel.
Local Open Scope nat_scope.
(** rows without and with distant ranks, in their order *)
Definition shared {D} (row : list D * list nat) : bool := match snd row with [] => false | _ => true end.
Definition locals {D} (gen : list (list D * list nat)) : list (list D * list nat) := filter (fun row => negb (shared row)) gen.
Definition exs {D} (gen : list (list D * list nat)) : list (list D * list nat) := filter shared gen.
