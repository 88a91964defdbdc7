(** C105: data of the nodes of a distributed mesh, sent from the master of every class to its other ranks. *)
From Verif Require Import Base EQCModel EQCProps GCModel GCProps GEModel GESpec GECheck DataModel DataSpec DataProofs DataProps ScatModel ScatSpec ScatProofs.
Local Open Scope nat_scope.

(** Scattering gives every node of every rank the value that the lowest rank with the node had; nodes and cross nodes are numbered class by class *)
Theorem C105_scatter : forall W EN CN data, consistent W -> let H := map dist_procs W in let T := layout H EN CN in
  local_first H -> counts_fit H EN CN -> sizes_fit H (all_nodes EN CN) data ->
  exists v, ScatterNodalData H EN CN data = Ret v /\ sizes_fit H (all_nodes EN CN) v /\ values_agree H T v /\
    forall r i, r < length H -> i < all_nodes EN CN r -> exists q i', same_vertex H T r i q i' /\ lowest H T q i' /\ val v r i = val data q i'.
Proof. intros W EN CN data C H T HF CF HS. apply (scatter_ok H EN CN data); auto. now apply sorted_w. Qed.
(** data that agree already are not changed *)
Theorem C105_agree : forall W EN CN data, consistent W -> let H := map dist_procs W in
  local_first H -> counts_fit H EN CN -> sizes_fit H (all_nodes EN CN) data -> values_agree H (layout H EN CN) data -> ScatterNodalData H EN CN data = Ret data.
Proof.
  intros W EN CN data C H HF CF HS AG. destruct (C105_scatter W EN CN data C HF CF HS) as (v & Q & (L1 & N1) & _ & P). change (map dist_procs W) with H in Q, L1, N1, P. rewrite Q. f_equal. destruct HS as (L2 & N2). apply (nth_ext _ _ [] []). congruence. intros r Hr. rewrite L1 in Hr. specialize (N1 r Hr). specialize (N2 r Hr). unfold size in N1, N2. apply (nth_ext _ _ 0%Z 0%Z). congruence. intros i Hi. rewrite N1 in Hi.
  destruct (P r i Hr Hi) as (q & i' & SV & _ & E). change (val v r i = val data r i). rewrite E. symmetry. apply AG; auto. destruct SV as (j & j' & l & _ & (B & _) & _). destruct (Nat.lt_ge_cases q (length H)); auto. rewrite (nth_overflow H) in B by auto. now apply Nat.nlt_0_r in B.
Qed.
(** data that agree, distributed (C99: every node keeps its value on the lowest rank only) and then scattered are the same again *)
Theorem C105_undo : forall W EN CN data, consistent W -> let H := map dist_procs W in
  let E := map (fun r => consecutive 0 (nth r EN [])) (seq 0 (length H)) in let X := map (fun r => consecutive (list_sum (nth r EN [])) (nth r CN [])) (seq 0 (length H)) in
  local_first H -> counts_fit H EN CN -> sizes_fit H (all_nodes EN CN) data -> values_agree H (layout H EN CN) data ->
  exists A, Distribute H E X (mkA false data) = Ret A /\ ScatterNodalData H EN CN (a_val A) = Ret data.
Proof.
  intros W EN CN data C H E X HF CF HS AG. pose proof (sorted_w W C) as HW. change (map dist_procs W) with H in HW. pose proof (layout_ok H EN CN CF) as HT. change (layout H EN CN) with (numbers H E X) in HT, AG.
  destruct (C99_distribute W E X (all_nodes EN CN) data C HT HS) as (v & Q & HSv & Lo & _). change (map dist_procs W) with H in Q, HSv, Lo. exists (mkA true v). split; auto. cbn [a_val]. destruct (C105_scatter W EN CN v C HF CF HSv) as (w & Q' & (L1 & N1) & _ & P). change (map dist_procs W) with H in Q', L1, N1, P. rewrite Q'. f_equal.
  destruct HS as (L2 & N2). apply (nth_ext _ _ [] []). congruence. intros r Hr. rewrite L1 in Hr. specialize (N1 r Hr). specialize (N2 r Hr). unfold size in N1, N2. apply (nth_ext _ _ 0%Z 0%Z). congruence. intros i Hi. rewrite N1 in Hi.
  destruct (P r i Hr Hi) as (q & i' & SV & LO & E1). change (val w r i = val data r i). rewrite E1. change (layout H EN CN) with (numbers H E X) in SV, LO. assert (SV' := SV). destruct SV' as (j & j' & l & _ & B & _).
  assert (Hq : q < length H). { destruct (Nat.lt_ge_cases q (length H)) as [|G]; auto. destruct B as (B & _). rewrite (nth_overflow H) in B by auto. now apply Nat.nlt_0_r in B. }
  rewrite (proj1 (Lo q i' Hq (at_lt H _ _ HT q i' j' l Hq B)) LO). symmetry. now apply AG.
Qed.
(** four ranks; both kinds of nodes; a class of three ranks *)
Definition counts_fit_b (H : list (list (list nat))) (EN CN : list (list nat)) : bool :=
  forallb (fun r => (length (nth r EN []) =? length (nth r H [])) && (length (nth r CN []) =? length (nth r H []))) (seq 0 (length H)) &&
  forallb (fun r => forallb (fun r' => forallb (fun j => forallb (fun j' => implb (same_class_b r (nth j (nth r H []) []) r' (nth j' (nth r' H []) [])) ((nth j (nth r EN []) 0 =? nth j' (nth r' EN []) 0) && (nth j (nth r CN []) 0 =? nth j' (nth r' CN []) 0))) (seq 0 (length (nth r' H [])))) (seq 0 (length (nth r H [])))) (seq 0 (length H))) (seq 0 (length H)).
Lemma counts_fit_ok H EN CN : counts_fit_b H EN CN = true -> counts_fit H EN CN.
Proof.
  unfold counts_fit_b. rewrite !andb_true_iff, !all_lt. intros (A & C). constructor.
  - intros r Hr. specialize (A r Hr). apply andb_true_iff in A as (A & B). split; now apply Nat.eqb_eq.
  - intros r r' j j' Hr Hr' Hj Hj' X. apply same_class_ok in X. specialize (C r Hr). rewrite all_lt in C. specialize (C r' Hr'). rewrite all_lt in C. specialize (C j Hj). rewrite all_lt in C. specialize (C j' Hj'). rewrite X in C. apply andb_true_iff in C as (C1 & C2). split; now apply Nat.eqb_eq.
Qed.
Definition ENs : list (list nat) := [[1; 1; 1; 0]; [0; 1; 0; 0]; [1; 1; 0]; [1; 0]].
Definition CNs : list (list nat) := [[1; 2; 0; 1]; [0; 2; 1; 1]; [0; 0; 1]; [0; 1]].
Definition datas : list (list Z) := [[1; 2; 3; 4; 5; 6; 7]; [10; 20; 30; 40; 50]; [100; 200; 300]; [1000; 2000]]%Z.
Example C105_ex : let H := map dist_procs Wd in consistent Wd /\ local_first H /\ counts_fit H ENs CNs /\ sizes_fit H (all_nodes ENs CNs) datas /\
  ScatterNodalData H ENs CNs datas = Ret [[1; 2; 3; 4; 5; 6; 7]; [2; 5; 6; 40; 7]; [100; 3; 40]; [1000; 7]]%Z /\
  ScatterNodalData H ENs CNs [[1; 2; 3; 4; 5; 6; 7]; [2; 5; 6; 40; 7]; [100; 3; 40]; [1000; 7]]%Z = Ret [[1; 2; 3; 4; 5; 6; 7]; [2; 5; 6; 40; 7]; [100; 3; 40]; [1000; 7]]%Z.
Proof.
  cbn zeta. split. apply consistent_ok. vm_compute. reflexivity. split. { intros r Hr. do 4 (destruct r as [|r]; [reflexivity|]). cbn in Hr. lia. } split. apply counts_fit_ok. vm_compute. reflexivity.
  split. split. reflexivity. intros r Hr. do 4 (destruct r as [|r]; [reflexivity|]). cbn in Hr. lia. split; vm_compute; reflexivity.
Qed.
Print Assumptions C105_scatter.
Print Assumptions C105_agree.
Print Assumptions C105_undo.
