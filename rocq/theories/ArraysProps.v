(** Properties C01-C06 (src/base/utils/utils_arrays_tables.hpp).
    "ascending" is [StronglySorted Z.le], "strictly ascending" is [StronglySorted Z.lt]; a permutation of n
    indices is a list that is a [Permutation] of 0..n-1.  [Ret v] = returns v without out-of-bounds access. *)
From Verif Require Import Base ArraysModel ArraysProofs ArraysProofs2.
Local Open Scope Z_scope.

(** *** C01 *)
Theorem C01_find_in_sorted_array : forall (elem : Z) (a : list Z), StronglySorted Z.le a ->
  (In elem a -> exists i, find_in_sorted_array elem a = Ret (Some i) /\ nth_error a i = Some elem) /\
  (~ In elem a -> find_in_sorted_array elem a = Ret None).
Proof. exact find_in_sorted_array_spec. Qed.
Print Assumptions C01_find_in_sorted_array.
Ltac ss := repeat constructor; simpl; lia.
Example C01_ex : StronglySorted Z.le [1;1;3;5;7;9;11;13;15;17] /\ In 13 [1;1;3;5;7;9;11;13;15;17]
  /\ find_in_sorted_array 13 [1;1;3;5;7;9;11;13;15;17] = Ret (Some 7%nat) /\ find_in_sorted_array 12 [1;1;3;5;7;9;11;13;15;17] = Ret None.
Proof. split; [ss|]. split; [simpl; tauto|]. split; vm_compute; reflexivity. Qed.

(** *** C02 *)
Theorem C02_merge_pos : forall (elem : Z) (a : list Z), StronglySorted Z.le a ->
  exists p, merge_pos_in_sorted_array elem a = Ret (Some p) /\ (p <= length a)%nat /\
    (forall x, In x (firstn p a) -> x <= elem) /\ (forall x, In x (skipn p a) -> elem < x).
Proof. exact merge_pos_spec. Qed.
Print Assumptions C02_merge_pos.

Theorem C02_insert : forall (elem : Z) (a : list Z), StronglySorted Z.le a ->
  exists a', insert_into_sorted_array elem a = Ret a' /\ StronglySorted Z.le a' /\ Permutation a' (elem :: a).
Proof. exact insert_into_sorted_array_spec. Qed.
Print Assumptions C02_insert.

Theorem C02_insert_nodups : forall (elem : Z) (a : list Z), StronglySorted Z.lt a ->
  (In elem a -> insert_into_sorted_array_nodups elem a = Ret (false, a)) /\
  (~ In elem a -> exists a', insert_into_sorted_array_nodups elem a = Ret (true, a') /\
       StronglySorted Z.lt a' /\ Permutation a' (elem :: a)).
Proof. exact insert_nodups_spec. Qed.
Print Assumptions C02_insert_nodups.

Theorem C02_sorted_insert_unique : forall (elem : Z) (a : list Z), StronglySorted Z.lt a ->
  (In elem a -> exists p, sorted_insert_unique elem a = Ret (false, Some p, a) /\ nth_error a (p-1) = Some elem) /\
  (~ In elem a -> exists p a', sorted_insert_unique elem a = Ret (true, Some p, a') /\ nth_error a' p = Some elem /\
       StronglySorted Z.lt a' /\ Permutation a' (elem :: a)).
Proof. exact sorted_insert_unique_spec. Qed.
Print Assumptions C02_sorted_insert_unique.

Theorem C02_removeEntry : forall (pos : nat) (a : list Z), (pos < length a)%nat ->
  exists l x r, a = l ++ x :: r /\ length l = pos /\ removeEntry pos a = Ret (l ++ r).
Proof. exact removeEntry_spec. Qed.
Print Assumptions C02_removeEntry.

(** ind_of_max: the first position of the maximum, -1 only for an empty array *)
Theorem C02_ind_of_max : forall a : list Z, match ind_of_max a with
  | None => a = []
  | Some i => (i < length a)%nat /\ (forall j, (j < length a)%nat -> nth j a 0 <= nth i a 0) /\
              (forall j, (j < i)%nat -> nth j a 0 < nth i a 0)
  end.
Proof. exact ind_of_max_spec. Qed.
Print Assumptions C02_ind_of_max.
Example C02_ex : StronglySorted Z.lt [2;4;6;8;10;12;14] /\ ~ In 9 [2;4;6;8;10;12;14]
  /\ insert_into_sorted_array_nodups 9 [2;4;6;8;10;12;14] = Ret (true, [2;4;6;8;9;10;12;14])
  /\ merge_pos_in_sorted_array 9 [2;4;6;8;10;12;14] = Ret (Some 4%nat).
Proof. split; [ss|]. split; [simpl; lia|]. split; vm_compute; reflexivity. Qed.

(** *** C03 *)
Theorem C03_ApplyPermutation : forall (A : Type) (d : A) (arr : list A) (perm : list Z),
  Permutation perm (map Z.of_nat (seq 0 (length arr))) ->
  exists arr' perm', ApplyPermutation arr perm = Ret (arr', perm') /\ length arr' = length arr /\
    forall k, (k < length arr)%nat -> nth k arr' d = nth (Z.to_nat (nth k perm 0)) arr d.
Proof.
  intros A d arr perm H. rewrite (ApplyPermutation_spec d arr perm H). eexists; eexists; split; [reflexivity|].
  pose proof (is_perm_length _ _ H) as L. rewrite map_length. split; [exact L|]. intros k Hk.
  rewrite (nth_indep (map _ _) d ((fun p => nth (Z.to_nat p) arr d) 0)) by (rewrite map_length; lia).
  exact (map_nth (fun p => nth (Z.to_nat p) arr d) perm 0 k).
Qed.
Print Assumptions C03_ApplyPermutation.

Theorem C03_ApplyAndKeepPermutation : forall (A : Type) (d : A) (arr : list A) (perm : list Z),
  Permutation perm (map Z.of_nat (seq 0 (length arr))) ->
  exists arr', ApplyAndKeepPermutation arr perm = Ret (arr', perm) /\ length arr' = length arr /\
    forall k, (k < length arr)%nat -> nth k arr' d = nth (Z.to_nat (nth k perm 0)) arr d.
Proof.
  intros A d arr perm H. rewrite (ApplyAndKeepPermutation_spec d arr perm H). eexists; split; [reflexivity|].
  pose proof (is_perm_length _ _ H) as L. rewrite map_length. split; [exact L|]. intros k Hk.
  rewrite (nth_indep (map _ _) d ((fun p => nth (Z.to_nat p) arr d) 0)) by (rewrite map_length; lia).
  exact (map_nth (fun p => nth (Z.to_nat p) arr d) perm 0 k).
Qed.
Print Assumptions C03_ApplyAndKeepPermutation.

(** the in-place and the buffered variant agree *)
Theorem C03_buffered_agrees : forall (A : Type) (arr : list A) (perm : list Z),
  Permutation perm (map Z.of_nat (seq 0 (length arr))) ->
  exists arr' perm', ApplyPermutation arr perm = Ret (arr', perm') /\ ApplyPermutation_buffered arr perm = Ret arr'.
Proof.
  intros A [|d arr] perm H.
  - exists [], perm. split; reflexivity.
  - rewrite (ApplyPermutation_spec d _ perm H), (ApplyPermutation_buffered_spec d _ perm H). eauto.
Qed.
Print Assumptions C03_buffered_agrees.

Theorem C03_InvertPermutation : forall (n : nat) (perm out : list Z),
  Permutation perm (map Z.of_nat (seq 0 n)) -> length out = n ->
  exists inv, InvertPermutation perm out = Ret inv /\ Permutation inv (map Z.of_nat (seq 0 n)) /\
    (forall k, (k < n)%nat -> nth (Z.to_nat (nth k perm 0)) inv 0 = Z.of_nat k) /\
    (forall k, (k < n)%nat -> nth (Z.to_nat (nth k inv 0)) perm 0 = Z.of_nat k).
Proof. exact InvertPermutation_spec. Qed.
Print Assumptions C03_InvertPermutation.
Example C03_ex : Permutation [2;0;1;4;3] (map Z.of_nat (seq 0 5)) /\
  ApplyPermutation [10;11;12;13;14] [2;0;1;4;3] = Ret ([12;10;11;14;13], [-1;-1;-1;-1;-1]) /\
  ApplyAndKeepPermutation [10;11;12;13;14] [2;0;1;4;3] = Ret ([12;10;11;14;13], [2;0;1;4;3]).
Proof.
  split; [|split; vm_compute; reflexivity]. simpl.
  apply NoDup_Permutation; [repeat constructor; simpl; lia|repeat constructor; simpl; lia|simpl; intros; lia].
Qed.

(** *** C04 *)
Theorem C04_merge_two : forall a b : list Z, StronglySorted Z.lt a -> StronglySorted Z.lt b ->
  StronglySorted Z.lt (merge_arrays2 a b) /\ (forall z, In z (merge_arrays2 a b) <-> In z a \/ In z b).
Proof. intros a b Ha Hb. split; [exact (merge2_sorted a b Ha Hb)|exact (merge2_in a b)]. Qed.
Print Assumptions C04_merge_two.

Theorem C04_merge_table : forall rows : list (list Z), (forall r, In r rows -> StronglySorted Z.lt r) ->
  exists out, merge_arrays rows = Ret out /\ StronglySorted Z.lt out /\
    (forall z, In z out <-> exists r, In r rows /\ In z r).
Proof. exact merge_arrays_spec. Qed.
Print Assumptions C04_merge_table.

Theorem C04_MergeArrays1 : forall rows : list (list Z), (forall r, In r rows -> StronglySorted Z.lt r) ->
  (forall r z, In r rows -> In z r -> z < INT_MAX) ->
  exists out, MergeArrays1 rows = Ret out /\ StronglySorted Z.lt out /\
    (forall z, In z out <-> exists r, In r rows /\ In z r).
Proof. exact MergeArrays1_spec. Qed.
Print Assumptions C04_MergeArrays1.
(** the bound on the values is needed: the sentinel value itself breaks the merge *)
Theorem C04_MergeArrays1_sentinel_refuted : exists rows : list (list Z),
  (forall r, In r rows -> StronglySorted Z.lt r) /\ MergeArrays1 rows = Err OutOfBounds.
Proof.
  exists [[INT_MAX]; []]. split; [|vm_compute; reflexivity].
  intros r [<-|[<-|[]]]; repeat constructor.
Qed.
Print Assumptions C04_MergeArrays1_sentinel_refuted.
Example C04_ex : (forall r, In r [[1;4;9];[];[2;4];[0;9;10]] -> StronglySorted Z.lt r) /\
  MergeArrays1 [[1;4;9];[];[2;4];[0;9;10]] = Ret [0;1;2;4;9;10].
Proof. split; [|vm_compute; reflexivity]. simpl; intros r H; decompose [or] H; subst; try tauto; ss. Qed.

(** column-wise reduction of a table (sum_table / min_table / max_table / reduce_table) *)
Theorem C04_reduce_table : forall (f : Z -> Z -> Z) (r0 : list Z) (rest : list (list Z)),
  (forall r, In r rest -> length r = length r0) ->
  exists out, reduce_table f (r0 :: rest) = Ret out /\ length out = length r0 /\
    forall l, (l < length r0)%nat -> nth l out 0 = fold_left f (map (fun r => nth l r 0) rest) (nth l r0 0).
Proof. exact reduce_table_spec. Qed.
Print Assumptions C04_reduce_table.
Example C04_reduce_ex : reduce_table Z.max [[1;7;3];[4;5;6];[0;9;2]] = Ret [4;9;6].
Proof. reflexivity. Qed.

(** *** C05 *)
Theorem C05_iterate_intersection : forall a b : list Z, StronglySorted Z.lt a -> StronglySorted Z.lt b ->
  (forall i j, In (i, j) (iterate_intersection a b) <-> exists z, nth_error a i = Some z /\ nth_error b j = Some z) /\
  StronglySorted Z.lt (map (fun p => nth (fst p) a 0) (iterate_intersection a b)).
Proof. exact iterate_intersection_spec. Qed.
Print Assumptions C05_iterate_intersection.

Theorem C05_iterate_ABC : forall a b : list Z, StronglySorted Z.lt a -> StronglySorted Z.lt b ->
  (forall i j, In (INTERSECTION i j) (iterate_ABC a b) <-> exists z, nth_error a i = Some z /\ nth_error b j = Some z) /\
  (forall i, In (A_NOT_B i) (iterate_ABC a b) <-> exists z, nth_error a i = Some z /\ ~ In z b) /\
  (forall j, In (B_NOT_A j) (iterate_ABC a b) <-> exists z, nth_error b j = Some z /\ ~ In z a) /\
  StronglySorted Z.lt (map (fun c => match c with INTERSECTION i _ => nth i a 0 | A_NOT_B i => nth i a 0 | B_NOT_A j => nth j b 0 end)
                           (iterate_ABC a b)).
Proof. exact iterate_ABC_spec. Qed.
Print Assumptions C05_iterate_ABC.

Theorem C05_is_intersect_empty : forall a b : list Z, StronglySorted Z.lt a -> StronglySorted Z.lt b ->
  (is_intersect_empty a b = true <-> forall z, ~ (In z a /\ In z b)).
Proof. exact is_intersect_empty_spec. Qed.
Print Assumptions C05_is_intersect_empty.

Theorem C05_intersect_sorted_arrays : forall a b : list Z, StronglySorted Z.lt a -> StronglySorted Z.lt b ->
  StronglySorted Z.lt (intersect_sorted_arrays a b) /\
  forall z, In z (intersect_sorted_arrays a b) <-> In z a /\ In z b.
Proof. exact intersect_sorted. Qed.
Print Assumptions C05_intersect_sorted_arrays.

Theorem C05_iterate_anotb : forall a b : list Z, StronglySorted Z.lt a -> StronglySorted Z.lt b ->
  (forall i, In i (iterate_anotb a b) <-> exists z, nth_error a i = Some z /\ ~ In z b) /\
  StronglySorted lt (iterate_anotb a b).
Proof. exact iterate_anotb_spec. Qed.
Print Assumptions C05_iterate_anotb.

Theorem C05_setMinus : forall a b : list Z, StronglySorted Z.lt a -> StronglySorted Z.lt b ->
  StronglySorted Z.lt (setMinus a b) /\ forall z, In z (setMinus a b) <-> In z a /\ ~ In z b.
Proof. exact setMinus_spec. Qed.
Print Assumptions C05_setMinus.

(** partitionAB splits the positions of the big set (blown up to blocks of BS) into members / non-members *)
Theorem C05_partitionAB : forall (subA bigSet : list Z) (BS : nat),
  StronglySorted Z.lt subA -> StronglySorted Z.lt bigSet -> (forall z, In z subA -> In z bigSet) ->
  exists pA pB,
    partitionAB subA bigSet BS = Ret (flat_map (fun i => map (fun k => BS * i + k)%nat (seq 0 BS)) pA,
                                      flat_map (fun i => map (fun k => BS * i + k)%nat (seq 0 BS)) pB) /\
    (forall i, In i pA <-> exists z, nth_error bigSet i = Some z /\ In z subA) /\
    (forall i, In i pB <-> exists z, nth_error bigSet i = Some z /\ ~ In z subA) /\
    NoDup pA /\ NoDup pB.
Proof. exact partitionAB_spec. Qed.
Print Assumptions C05_partitionAB.
Example C05_ex : StronglySorted Z.lt [1;3;5;8] /\ StronglySorted Z.lt [0;3;4;8;9] /\
  iterate_intersection [1;3;5;8] [0;3;4;8;9] = [(1,1);(3,3)]%nat /\ setMinus [1;3;5;8] [0;3;4;8;9] = [1;5] /\
  partitionAB [3;8] [1;3;5;8] 2 = Ret ([2;3;6;7],[0;1;4;5])%nat.
Proof. split; [ss|]. split; [ss|]. repeat split; vm_compute; reflexivity. Qed.

(** *** C06 *)
Theorem C06_posSortedInSorted : forall a b : list Z, StronglySorted Z.lt a -> StronglySorted Z.lt b ->
  (forall z, In z a -> In z b) ->
  length (posSortedInSorted a b) = length a /\
  forall k z, nth_error a k = Some z -> exists p, nth_error (posSortedInSorted a b) k = Some (Z.of_nat p) /\ nth_error b p = Some z.
Proof. exact posSortedInSorted_spec. Qed.
Print Assumptions C06_posSortedInSorted.

(** without the subset condition an element that IS present is reported as missing *)
Theorem C06_posSortedInSorted_missing_refuted : exists (a b : list Z) (k p : nat) (z : Z),
  StronglySorted Z.lt a /\ StronglySorted Z.lt b /\ nth_error a k = Some z /\ nth_error b p = Some z /\
  nth_error (posSortedInSorted a b) k = Some (-1).
Proof. exists [2;3], [1;3], 1%nat, 1%nat, 3. split; [ss|]. split; [ss|]. repeat split. Qed.
Print Assumptions C06_posSortedInSorted_missing_refuted.
Example C06_ex : StronglySorted Z.lt [3;8] /\ StronglySorted Z.lt [1;3;5;8] /\ (forall z, In z [3;8] -> In z [1;3;5;8]) /\
  posSortedInSorted [3;8] [1;3;5;8] = [1;3].
Proof. split; [ss|]. split; [ss|]. split; [simpl; intros; tauto|reflexivity]. Qed.
