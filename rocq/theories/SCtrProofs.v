(** RemoveDuplicates and the messages *)
From Verif Require Import Base ArraysModel ArraysProofs ArraysProps LoopModel SMapModel SMapProofs SMapProofs3 SMapProofs8 SMapProofs9 SMeshModel SCtrModel.
Import ListNotations.

(** ** RemoveDuplicates *)
Lemma qins_zins a l : qins a l = zins a l. Proof. induction l as [|b l IH]; cbn; auto. Qed.
Lemma quicksort_zsort l : quicksort l = zsort l.
Proof. reflexivity. Qed.
Fixpoint uniq (x : Z) (l : list Z) : list Z := match l with [] => [x] | y :: l' => if (y =? x)%Z then uniq x l' else x :: uniq y l' end.
Lemma uniq_head x l : exists t, uniq x l = x :: t.
Proof. induction l as [|y l IH]; cbn; [eauto|]. destruct (Z.eqb_spec y x); eauto. Qed.
Lemma uniq_in : forall l x z, In z (uniq x l) <-> In z (x :: l).
Proof.
  induction l as [|y l IH]; intros x z; [reflexivity|]. cbn [uniq]. destruct (Z.eqb_spec y x) as [->|NE].
  - rewrite IH. cbn. tauto.
  - cbn [In]. rewrite IH. cbn. tauto.
Qed.
Lemma uniq_sorted : forall l x, StronglySorted Z.le (x :: l) -> StronglySorted Z.lt (uniq x l).
Proof.
  induction l as [|y l IH]; intros x H; cbn [uniq]; [repeat constructor|]. apply StronglySorted_inv in H. destruct H as [H F]. destruct (Z.eqb_spec y x) as [->|NE].
  - apply IH; auto.
  - constructor; [apply IH; auto|]. rewrite Forall_forall in *. intros z Hz. apply uniq_in in Hz. pose proof (F z Hz). pose proof (F y (or_introl eq_refl)). apply StronglySorted_inv in H. destruct H as [_ F2]. rewrite Forall_forall in F2. destruct Hz as [<-|Hz]; [lia|]. specialize (F2 z Hz). lia.
Qed.
Lemma uniq_len : forall l x, (length (uniq x l) + ndups (x :: l) = S (length l))%nat.
Proof. induction l as [|y l IH]; intros x; [reflexivity|]. cbn [uniq]. specialize (IH y). change (ndups (x :: y :: l)) with ((if Z.eqb y x then 1 else 0) + ndups (y :: l))%nat. destruct (Z.eqb_spec y x) as [->|NE]; cbn [length] in *; lia. Qed.
Lemma dedup_fold : forall rest d x k, length (uniq x rest) = S k -> exists c, foldM dedup_entry rest (length d, d ++ x :: repeat 0%Z k) = Ret (c, d ++ uniq x rest).
Proof.
  induction rest as [|y rest IH]; intros d x k H.
  - cbn in H. replace k with O by lia. exists (length d). reflexivity.
  - cbn [foldM uniq] in *. unfold dedup_entry at 1. rewrite (rd_ok _ (length d) 0%Z) by (rewrite app_length; cbn; lia). rewrite app_nth2, Nat.sub_diag by lia. cbn [nth bind]. destruct (Z.eqb_spec y x) as [->|NE].
    + cbn [bind]. apply IH; auto.
    + cbn [length] in H. destruct k as [|k]; [destruct (uniq_head y rest) as (t & E); rewrite E in H; cbn in H; lia|].
      rewrite wr_ok by (rewrite app_length; cbn; lia). cbn [bind].
      replace (upd (d ++ x :: repeat 0%Z (S k)) (S (length d)) y) with ((d ++ [x]) ++ y :: repeat 0%Z k).
      * replace (S (length d)) with (length (d ++ [x])) by (rewrite app_length; cbn; lia). destruct (IH (d ++ [x]) y k) as (c & E); [lia|]. exists c. rewrite E. rewrite <- app_assoc. reflexivity.
      * rewrite <- app_assoc. cbn [app]. clear. induction d as [|z d IH]; [reflexivity|]. cbn [length app upd]. f_equal. exact IH.
Qed.
Lemma dedup_row_ok row : exists out, dedup_row row = Ret out /\ StronglySorted Z.lt out /\ forall x, In x out <-> In x row.
Proof.
  unfold dedup_row. destruct (Nat.ltb_spec (length row) 2) as [L|L].
  - destruct row as [|x [|y row]]; cbn in L; [| |lia].
    + exists []. split; [reflexivity|]. split; [constructor|reflexivity].
    + exists [x]. split; [reflexivity|]. split; [repeat constructor|reflexivity].
  - rewrite quicksort_zsort. assert (LS : length (zsort row) = length row) by (apply Permutation_length, zsort_perm). rewrite !LS. destruct (Nat.ltb_spec (length row) 2); [lia|].
    pose proof (zsort_sorted row) as SS. destruct (zsort row) as [|x rest] eqn:E; [cbn in LS; lia|]. pose proof (uniq_len rest x) as UL. cbn [length] in LS.
    assert (exists k, length (uniq x rest) = S k) as (k & K) by (destruct (uniq_head x rest) as (t & ->); cbn; eauto).
    replace (length row - ndups (x :: rest))%nat with (S k) by lia. cbn [repeat]. rewrite wr_ok by (cbn; lia). cbn [bind upd].
    destruct (dedup_fold rest [] x k K) as (c & EF). cbn [app length] in EF. rewrite EF. cbn [bind]. exists (uniq x rest). split; [reflexivity|]. split; [apply uniq_sorted; auto|].
    intros z. rewrite uniq_in, <- E. split; apply Permutation_in; [|symmetry]; apply zsort_perm.
Qed.
Lemma RemoveDuplicates_ok t : exists t', RemoveDuplicates t = Ret t' /\ length t' = length t /\ forall i, (i < length t)%nat -> StronglySorted Z.lt (nth i t' []) /\ forall x, In x (nth i t' []) <-> In x (nth i t []).
Proof.
  unfold RemoveDuplicates. destruct (mapM_from dedup_row (fun a b => StronglySorted Z.lt b /\ forall x, In x b <-> In x a) t) as (t' & E & F).
  - intros a _. apply dedup_row_ok.
  - exists t'. split; auto. split; [symmetry; eapply F2_length; eauto|]. clear E. induction F as [|a b l l' H F IH]; intros i Hi; [cbn in Hi; lia|]. destruct i as [|i]; [exact H|]. apply IH. cbn in Hi; lia.
Qed.

(** ** messages *)
Lemma part_mid {A} (a b c : list A) os (len : Z) : os = length a -> len = Z.of_nat (length b) -> part (a ++ b ++ c) os len = Ret b.
Proof.
  intros -> ->. unfold part. destruct (Z.ltb_spec (Z.of_nat (length b)) 0); [lia|]. rewrite Nat2Z.id. destruct (Nat.ltb_spec (length (a ++ b ++ c)) (length a + length b)) as [L|L]; [rewrite !app_length in L; lia|]. cbn [orb].
  rewrite skipn_app, skipn_all, Nat.sub_diag. cbn [skipn app]. rewrite firstn_app, firstn_all, Nat.sub_diag. cbn [firstn]. rewrite app_nil_r. reflexivity.
Qed.
Lemma index_len : forall t n, length (index_from n t) = S (length t).
Proof. induction t as [|r t IH]; intros n; cbn [index_from length]; auto. Qed.
Lemma index_nth : forall t n k, (k <= length t)%nat -> nth k (index_from n t) 0%Z = Z.of_nat (n + length (concat (firstn k t))).
Proof.
  induction t as [|r t IH]; intros n k Hk; cbn [length] in Hk.
  - replace k with O by lia. cbn. f_equal. lia.
  - destruct k as [|k]; [cbn; f_equal; lia|]. cbn [index_from nth firstn concat]. rewrite IH by lia. rewrite app_length. f_equal. lia.
Qed.
Lemma unpack_table_ok t rest cap : (S (length t) <= cap)%nat -> unpack_table (pack_table t ++ rest) cap = Ret (length (pack_table t), S (length t), t).
Proof.
  intros H. unfold unpack_table, pack_table. cbn [app]. change (rd (Z.of_nat (length t) :: ?l) 0) with (Ret (Z.of_nat (length t))).
  cbn [bind]. rewrite Nat2Z.id.
  destruct (Z.ltb_spec (Z.of_nat (length t)) 0); [lia|]. destruct (Nat.ltb_spec cap (S (length t))); [lia|]. cbn [orb].
  set (h := Z.of_nat (length t)). rewrite <- app_assoc.
  change (h :: index_from 0 t ++ concat t ++ rest) with ([h] ++ index_from 0 t ++ (concat t ++ rest)). rewrite (part_mid [h] (index_from 0 t)); [|reflexivity|unfold h; rewrite index_len; lia]. cbn [bind].
  unfold rdz. destruct (Z.ltb_spec h 0); [lia|]. unfold h at 1. rewrite Nat2Z.id. rewrite (rd_ok _ (length t) 0%Z) by (rewrite index_len; lia). cbn [bind]. rewrite index_nth, firstn_all by lia. cbn [Nat.add].
  assert (E : mapM (fun k => a <- rd (index_from 0 t) k ;; b <- rd (index_from 0 t) (S k) ;; if (a <? 0)%Z then Err OutOfBounds else part ([h] ++ index_from 0 t ++ concat t ++ rest) (S (S (length t + Z.to_nat a))) (b - a)) (seq 0 (length t)) = Ret (map (fun k => nth k t []) (seq 0 (length t)))).
  { apply mapM_ok. intros k Hk. apply in_seq in Hk. rewrite (rd_ok _ k 0%Z) by (rewrite index_len; lia). cbn [bind]. rewrite (rd_ok _ (S k) 0%Z) by (rewrite index_len; lia). cbn [bind]. rewrite !index_nth by lia. cbn [Nat.add]. destruct (Z.ltb_spec (Z.of_nat (length (concat (firstn k t)))) 0); [lia|]. rewrite Nat2Z.id.
    assert (SP : t = firstn k t ++ nth k t [] :: skipn (S k) t). { clear -Hk. destruct Hk as [_ Hk]. cbn in Hk. revert k Hk. induction t as [|r t IH]; intros k Hk; cbn in Hk; [lia|]. destruct k; [reflexivity|]. cbn [firstn nth skipn app]. f_equal. apply IH. lia. }
    assert (CT : concat t = concat (firstn k t) ++ nth k t [] ++ concat (skipn (S k) t)) by (rewrite SP at 1; rewrite concat_app; reflexivity).
    assert (CS : concat (firstn (S k) t) = concat (firstn k t) ++ nth k t []). { rewrite SP at 1. rewrite firstn_app, firstn_firstn, Nat.min_r by lia. rewrite firstn_length_le by lia. replace (S k - k)%nat with 1%nat by lia. cbn [firstn]. rewrite concat_app. cbn [concat]. rewrite app_nil_r. reflexivity. }
    rewrite CS, CT.
    replace ([h] ++ index_from 0 t ++ (concat (firstn k t) ++ nth k t [] ++ concat (skipn (S k) t)) ++ rest) with (([h] ++ index_from 0 t ++ concat (firstn k t)) ++ nth k t [] ++ (concat (skipn (S k) t) ++ rest)) by (rewrite <- !app_assoc; reflexivity).
    apply part_mid; rewrite ?app_length, ?index_len; cbn [length]; lia. }
  rewrite E. cbn [bind]. destruct (Z.ltb_spec (Z.of_nat (length (concat t))) 0); [lia|]. rewrite Nat2Z.id. f_equal. f_equal.
  - f_equal. cbn [length]. rewrite app_length, index_len. lia.
  - transitivity (map (fun x => x) t); [symmetry; apply (map_seq_nth (fun x => x)) | apply map_id].
Qed.
Lemma rd_mid {A} (a : list A) x b i : i = length a -> rd (a ++ x :: b) i = Ret x.
Proof. intros ->. rewrite (rd_ok _ _ x) by (rewrite app_length; cbn; lia). rewrite app_nth2, Nat.sub_diag by lia. reflexivity. Qed.
Lemma skip_mid {A} (a b : list A) n : n = length a -> skipn n (a ++ b) = b.
Proof. intros ->. rewrite skipn_app, skipn_all, Nat.sub_diag. reflexivity. Qed.

Theorem message_ok D junk : unpack_message (pack_message D junk) = Ret (mkU (d_gn D) (d_loops D) (d_dps D) (match d_gv D with Some gv => map b2z gv | None => [] end) (map b2z (d_des D))).
Proof.
  unfold unpack_message, pack_message. destruct D as [gn loops dps gv des]. cbn [d_gn d_loops d_dps d_gv d_des].
  set (n1 := Z.of_nat (length gn)). set (n2 := Z.of_nat (S (length loops) + S (length dps))). set (n4 := Z.of_nat (length des)).
  set (G := match gv with Some gv0 => map b2z gv0 | None => [] end). set (n3 := Z.of_nat (length G)).
  assert (EG : match gv with Some gv0 => Z.of_nat (length gv0) :: map b2z gv0 | None => [0%Z] end = n3 :: G). { unfold n3, G. destruct gv as [gv|]; [rewrite map_length|]; reflexivity. } rewrite EG. clear EG.
  set (D := map b2z des). assert (E4 : n4 = Z.of_nat (length D)) by (unfold n4, D; rewrite map_length; reflexivity).
  set (P1 := pack_table loops). set (P2 := pack_table dps).
  match goal with |- context [rd ?m 0] => set (msg := m) end.
  assert (M0 : msg = [n1] ++ gn ++ (n2 :: P1 ++ P2 ++ (n3 :: G) ++ n4 :: D ++ junk)) by reflexivity.
  assert (M1 : msg = ([n1] ++ gn) ++ n2 :: (P1 ++ P2 ++ (n3 :: G) ++ n4 :: D ++ junk)) by (rewrite M0; rewrite <- !app_assoc; reflexivity).
  assert (M2 : msg = ([n1] ++ gn ++ [n2]) ++ (P1 ++ P2 ++ (n3 :: G) ++ n4 :: D ++ junk)) by (rewrite M0; rewrite <- !app_assoc; reflexivity).
  assert (M3 : msg = ([n1] ++ gn ++ [n2] ++ P1) ++ (P2 ++ (n3 :: G) ++ n4 :: D ++ junk)) by (rewrite M0; rewrite <- !app_assoc; reflexivity).
  assert (M4 : msg = ([n1] ++ gn ++ [n2] ++ P1 ++ P2) ++ n3 :: (G ++ n4 :: D ++ junk)) by (rewrite M0; rewrite <- !app_assoc; reflexivity).
  assert (M5 : msg = ([n1] ++ gn ++ [n2] ++ P1 ++ P2 ++ [n3]) ++ G ++ (n4 :: D ++ junk)) by (rewrite M0; rewrite <- !app_assoc; reflexivity).
  assert (M6 : msg = ([n1] ++ gn ++ [n2] ++ P1 ++ P2 ++ [n3] ++ G) ++ n4 :: (D ++ junk)) by (rewrite M0; rewrite <- !app_assoc; reflexivity).
  assert (M7 : msg = ([n1] ++ gn ++ [n2] ++ P1 ++ P2 ++ [n3] ++ G ++ [n4]) ++ D ++ junk) by (rewrite M0; rewrite <- !app_assoc; reflexivity).
  replace (rd msg 0) with (Ret n1) by reflexivity. cbn [bind].
  rewrite M0 at 1. rewrite part_mid by auto. cbn [bind]. replace (Z.to_nat n1) with (length gn) by (unfold n1; lia).
  rewrite M1 at 1. rewrite rd_mid by (rewrite app_length; reflexivity). cbn [bind]. destruct (Z.ltb_spec n2 0); [unfold n2 in *; lia|].
  rewrite M2 at 1. rewrite skip_mid by (rewrite !app_length; cbn; lia). unfold P1 at 1. rewrite unpack_table_ok by (unfold n2; lia). cbn [bind]. fold P1.
  rewrite M3 at 1. rewrite skip_mid by (rewrite !app_length; cbn; lia). unfold P2 at 1. rewrite unpack_table_ok by (unfold n2; lia). cbn [bind]. fold P2.
  rewrite M4 at 1. rewrite rd_mid by (rewrite !app_length; cbn [length]; lia). cbn [bind].
  rewrite M5 at 1. rewrite part_mid; [|rewrite !app_length; cbn [length]; lia|reflexivity]. cbn [bind]. replace (Z.to_nat n3) with (length G) by (unfold n3; lia).
  rewrite M6 at 1. rewrite rd_mid by (rewrite !app_length; cbn [length]; lia). cbn [bind].
  rewrite M7 at 1. rewrite part_mid; [|rewrite !app_length; cbn [length]; lia|exact E4]. cbn [bind]. reflexivity.
Qed.
