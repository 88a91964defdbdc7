(** Sums over the new mesh; vertices. *)
From Verif Require Import Base EQCModel ReduceModel UtilProofs EQCProofs EQCProofs2 EQCProofs3 EQCProps ReduceProofs ReduceProps AggMapModel AggMapProofs GCModel GCProofs GCProofs2 GCProofs3 GCProps GEModel GEProofs GEProofs2 GEProofs3 GEProofs9 GEProofs10 GESpec GECheck DataModel DataSpec DataProofs DataProofs2 DataProofs3.
Local Open Scope nat_scope.

Section Transfer.
  Variables (H T CT' TV : list (list (list nat))) (groups : list (list nat)) (maps : list (list (list (option nat)))) (NN : list nat) (data : list (list Z)) (n : nat -> nat) (im : nat -> nat -> nat -> nat).
  Notation np := (length H).
  Notation ng := (length groups).
  Notation grp g := (nth g groups []).
  Hypothesis HG : grouping np groups.
  Hypothesis HC : length CT' = ng.
  Hypothesis M1 : length maps = ng.
  Hypothesis M2 : length NN = ng.
  Hypothesis M3 : forall g, g < ng -> length (nth g maps []) = length (grp g) /\ 0 < length (grp g).
  Hypothesis M4 : forall g k, g < ng -> k < length (grp g) -> rk groups g k < np /\ length (nth k (nth g maps []) []) = n (rk groups g k) /\ forall i, i < n (rk groups g k) -> nth i (nth k (nth g maps []) []) None = Some (im g k i) /\ im g k i < nth g NN 0.
  Hypothesis HD : length data = np.
  Hypothesis HN : forall q, q < np -> size data q = n q.
  Hypothesis SAME : forall g k i g' k' i', g < ng -> g' < ng -> k < length (grp g) -> k' < length (grp g') -> i < n (rk groups g k) -> i' < n (rk groups g' k') ->
    (same_vertex CT' TV g (im g k i) g' (im g' k' i') <-> same_vertex H T (rk groups g k) i (rk groups g' k') i').
  Definition out1 (d : bool) : list (list Z) := map (outs groups NN data im d) (seq 0 ng).
  Lemma out1_nth d g : g < ng -> nth g (out1 d) [] = outs groups NN data im d g. Proof. intros Hg. unfold out1. rewrite (nth_map_ok _ _ _ 0) by now rewrite seq_length. now rewrite seq_nth. Qed.
  Lemma bool_iff (a b : bool) : (a = true <-> b = true) -> a = b. Proof. destruct a, b; intuition. Qed.
  Lemma total_out g k i : g < ng -> k < length (grp g) -> i < n (rk groups g k) -> total CT' TV (out1 true) g (im g k i) = total H T data (rk groups g k) i.
  Proof.
    intros Hg Hk Hi. unfold total. set (r := rk groups g k). set (p := im g k i).
    transitivity (sumZ (map (fun g' => sumZ (map (fun k' => (fun r' => sumZ (map (fun i' => if same_vertex_b H T r i r' i' then val data r' i' else 0%Z) (seq 0 (size data r')))) (rk groups g' k')) (seq 0 (length (grp g'))))) (seq 0 ng))). 2: { exact (sum_groups np groups _ HG). }
    rewrite HC. apply sumZ_ext. intros g' G'. apply in_seq in G'. unfold size at 1. rewrite out1_nth by lia. rewrite (outs_length groups NN data im).
    transitivity (sumZ (map (fun p' => sumZ (map (fun k' => sumZ (map (fun i' => if same_vertex_b CT' TV g p g' p' then if im g' k' i' =? p' then val data (rk groups g' k') i' else 0%Z else 0%Z) (seq 0 (n (rk groups g' k'))))) (seq 0 (length (grp g'))))) (seq 0 (nth g' NN 0)))).
    { apply sumZ_ext. intros p' _. unfold val at 1. rewrite out1_nth by lia. rewrite (outs_dist groups maps NN data np n im M1 M2 M3 M4 HD HN) by lia. destruct (same_vertex_b CT' TV g p g' p'). auto. symmetry. apply sumZ_zero. intros k' _. apply sumZ_zero. auto. }
    rewrite sumZ_swap. apply sumZ_ext. intros k' K'. apply in_seq in K'. rewrite sumZ_swap. destruct (M4 g' k') as (A1 & A2 & A3); try lia. rewrite HN by auto. apply sumZ_ext. intros i' I'. apply in_seq in I'. destruct (A3 i') as (A4 & A5); [lia|]. rewrite (sumZ_single _ _ (im g' k' i') A5).
    - rewrite Nat.eqb_refl. replace (same_vertex_b H T r i (rk groups g' k') i') with (same_vertex_b CT' TV g p g' (im g' k' i')); auto. apply bool_iff. rewrite !same_vertex_iff. apply SAME; auto; lia.
    - intros p' _ N. destruct (Nat.eqb_spec (im g' k' i') p'); [congruence|]. now destruct (same_vertex_b CT' TV g p g' p').
  Qed.
  (** cumulated data *)
  Lemma cum_out : values_agree H T data -> (forall g k i, g < ng -> k < length (grp g) -> i < n (rk groups g k) -> same_vertex CT' TV g (im g k i) g (im g k i)) ->
    forall g k i, g < ng -> k < length (grp g) -> i < n (rk groups g k) -> val (out1 false) g (im g k i) = val data (rk groups g k) i.
  Proof.
    intros AG R g k i Hg Hk Hi. unfold val at 1. rewrite out1_nth by auto. apply (outs_cum groups maps NN data np n im); auto. intros k' i' Hk' Hi' Q. assert (S : same_vertex H T (rk groups g k') i' (rk groups g k) i). { apply (SAME g k' i' g k i); auto. rewrite Q. now apply R. } apply AG; auto; now apply (M4 g).
  Qed.
  (** no annoying nodes *)
  Lemma no_annoy d : MapNodeData CT' groups NN maps (map (fun _ => []) groups) d data = Ret (out1 d).
  Proof.
    unfold MapNodeData. rewrite (mapM_map _ (outs groups NN data im d)). 2: { intros g X. apply in_seq in X. apply (members_ok groups maps NN data np n im); auto. lia. } cbn [bind]. fold (out1 d).
    assert (RA : forall g, g < ng -> rd (map (fun _ : list nat => @nil (list nat)) groups) g = Ret []). { intros g Hg. rewrite (rd_nth _ g []) by now rewrite map_length. rewrite (nth_map_ok _ _ _ []) by auto. reflexivity. }
    assert (RO : forall g, g < ng -> rd (out1 d) g = Ret (outs groups NN data im d g)). { intros g Hg. rewrite (rd_nth _ g []) by (unfold out1; now rewrite map_length, seq_length). now rewrite out1_nth. }
    rewrite (mapM_map _ (fun _ => [])). 2: { intros g X. apply in_seq in X. rewrite RA, RO by lia. reflexivity. } cbn [bind].
    set (H0 := map (fun x : list (list nat) * list (list nat) => if length (snd x) =? 0 then [] else fst x) (combine CT' (map (fun _ => []) groups))). assert (L0 : length H0 = ng). { unfold H0. rewrite map_length, combine_length, map_length, HC. lia. }
    assert (N0 : forall g, nth g H0 [] = []). { intros g. destruct (Nat.lt_ge_cases g ng) as [X|X]. 2: { apply nth_overflow. lia. } unfold H0. rewrite (nth_map_ok _ _ _ ([], [])) by (rewrite combine_length, map_length, HC; lia). rewrite combine_nth by now rewrite map_length. cbn [snd]. rewrite (nth_map_ok _ _ _ []) by auto. reflexivity. }
    destruct (reduce_world H0) with (T := Z) (TR := Z) (tabs := map (fun _ : nat => @nil (list Z)) (seq 0 ng)) (lam := fun (_ _ : nat) rows => reduce_values d rows) as (red & E & L & LR & _).
    - constructor. intros r x _. rewrite N0. intros []. intros r _. rewrite N0. constructor. intros r x q _. rewrite N0. intros [].
    - now rewrite map_length, seq_length.
    - intros r Hr. rewrite N0. destruct (nth_in_or_default r (map (fun _ : nat => @nil (list Z)) (seq 0 ng)) []) as [X|X]; [|now rewrite X]. apply in_map_iff in X as (y & <- & _). reflexivity.
    - rewrite E. cbn [bind]. unfold out1. apply mapM_map. intros g X. apply in_seq in X. rewrite RA by lia. cbn [bind]. fold (out1 d). rewrite RO by lia. cbn [bind]. rewrite (rd_nth red g []) by lia. reflexivity.
  Qed.
End Transfer.

(** *** vertices *)
Lemma vertex_node_tables H V : vertex_tables H V -> node_tables H V (fun r => length (concat (nth r V []))).
Proof. intros [A B C D]. constructor; auto. intros r Hr. now rewrite C at 1. Qed.
Section Verts.
  Variables (W V : list (list (list nat))) (groups : list (list nat)).
  Notation H := (map dist_procs W).
  Hypothesis HC : consistent W.
  Hypothesis HG : grouping (length W) groups.
  Hypothesis HV : vertex_tables H V.
  Notation ng := (length groups).
  Notation grp g := (nth g groups []).
  Notation gvr := (gvr H V).
  Notation n := (fun r => length (concat (nth r V []))).
  Let KW := HW W HC.
  Let KR := G_rank W groups HG.
  Let KA := G_all W groups HG.
  Let K1 := G_one W groups HG.
  Definition vok (g : nat) (R : cverts) : Prop := R_ok H groups V [] [] gvr g R /\ last (v_dsp R) 0 = base H groups V g (length (ctab_of H groups g)) /\ length (v_maps R) = length (grp g) /\ (forall k, k < length (grp g) -> length (nth k (v_maps R) []) = n (rk groups g k)) /\
    forall k i, k < length (grp g) -> i < n (rk groups g k) -> image R k i = Some (iv H groups V g (gvr (rk groups g k) i)) /\ isv H groups V g (gvr (rk groups g k) i).
  Lemma verts_vok g : g < ng -> exists R, map_vertices (grp g) (contr H groups g) (map (fun r => nth r V []) (grp g)) = Ret R /\ vok g R.
  Proof.
    intros Hg. destruct (verts_ok W V groups HC HG HV g Hg) as (R & E & A1 & A2 & A3 & A4 & A5). exists R. split; auto. split; [|split; [|split; [|split]]]; auto.
    - split. split; auto. split; auto. intros k Hk j e Hj [X|X]; destruct (nth k (grp g) 0); destruct j; destruct X.
    - cbn [c_tab contr] in A1, A2. rewrite <- A2 by lia. destruct (v_dsp R) as [|x l] using rev_ind. cbn in A1. lia. rewrite last_last. rewrite app_length in A1. cbn in A1. rewrite app_nth2 by lia. replace (_ - length l) with 0 by lia. reflexivity.
    - intros k i Hk Hi. assert (Hr : rk groups g k < length H) by (apply (KR g); auto; now apply nth_In). destruct (at_ex H V _ (vertex_node_tables H V HV) (rk groups g k) i Hr Hi) as (j & l & X). destruct (at_num H V HV _ i j l Hr X) as (_ & _ & B). rewrite B. destruct X as (X1 & X2 & X3). assert (IV : is_vertex H V groups g k j l) by (split; [split|]; auto). rewrite <- X3. rewrite (A5 k j l IV). split; auto. split. apply (cl_MC W groups g k j). split; auto. apply (nv_at W V groups HC HG HV g k j l Hg IV).
  Qed.
  Lemma verts_all : exists Rs, contract_verts H groups V = Ret (map (contr H groups) (seq 0 ng), Rs) /\ length Rs = ng /\ forall g, g < ng -> vok g (nth g Rs (mkV [] [] [])).
  Proof.
    unfold contract_verts. rewrite (mapM_map _ (contr H groups)). 2: { intros g X. apply in_seq in X. apply Build_ok; auto. lia. } cbn [bind].
    assert (RC : forall g, g < ng -> rd (map (contr H groups) (seq 0 ng)) g = Ret (contr H groups g)). { intros g Hg. rewrite (rd_ok _ _ (contr H groups 0)) by (rewrite map_length, seq_length; lia). rewrite (nth_map_ok _ _ _ 0) by (now rewrite seq_length). now rewrite seq_nth. }
    destruct (mapM_exists (fun g => grp <- rd groups g ;; C <- rd (map (contr H groups) (seq 0 ng)) g ;; map_vertices grp C (map (fun r => nth r V []) grp)) vok (seq 0 ng)) as (Rs & E1 & L1 & A1).
    { intros g Hg. apply in_seq in Hg. rewrite (rd_ok _ _ []) by lia. cbn [bind]. rewrite RC by lia. cbn [bind]. apply verts_vok. lia. }
    rewrite E1. cbn [bind]. rewrite seq_length in L1. exists Rs. split; auto. split; auto. intros g Hg. destruct (A1 g g) as (R & B1 & B2). rewrite (nth_error_nth' _ 0) by (now rewrite seq_length). now rewrite seq_nth. now rewrite (nth_error_nth _ _ _ B1).
  Qed.
  Variable Rs : list cverts.
  Hypothesis HL : length Rs = ng.
  Notation Rf := (fun g => nth g Rs (mkV [] [] [])).
  Hypothesis HR : forall g, g < ng -> vok g (Rf g).
  Notation CT' := (CT H groups).
  Notation NV' := (NV H groups Rf).
  Notation gs g' a := (isv H groups V g' a).
  Lemma RO : forall g, g < ng -> R_ok H groups V [] [] gvr g (Rf g). Proof. intros g Hg. apply (HR g Hg). Qed.
  Lemma NT : node_tables CT' NV' (fun g => length (concat (nth g NV' []))).
  Proof. apply vertex_node_tables. exact (new_vertex_tables H groups KW KR KA K1 V [] [] gvr Rf RO). Qed.
  Lemma CTl : length CT' = ng. Proof. unfold CT. now rewrite map_length, seq_length. Qed.
  (** a vertex of two groups exists in both *)
  Lemma iv_same g g' a a' : g < ng -> g' < ng -> gs g a -> gs g' a' -> (same_vertex CT' NV' g (iv H groups V g a) g' (iv H groups V g' a') <-> a = a').
  Proof.
    intros Hg Hg' X X'. split. 2: { intros <-. exact (same_new H groups KW KR KA K1 V [] [] gvr Rf RO g g' a Hg Hg' X X'). }
    intros S. assert (Hg1 : g < length CT') by now rewrite CTl. assert (Hg1' : g' < length CT') by now rewrite CTl. pose proof (at_new H groups KW KR KA K1 V [] [] gvr Rf RO g a Hg X) as A. pose proof (at_new H groups KW KR KA K1 V [] [] gvr Rf RO g' a' Hg' X') as A'.
    destruct S as (j & j' & l & B & B' & SC). destruct (at_uniq CT' NV' _ NT g _ _ _ _ _ Hg1 A B) as (<- & <-). destruct (at_uniq CT' NV' _ NT g' _ _ _ _ _ Hg1' A' B') as (<- & Q).
    destruct (cnr_ok H groups g _ (proj1 X)) as (C1 & _). destruct (cnr_ok H groups g' _ (proj1 X')) as (C1' & _). apply (same_Ec H groups KW KR KA K1) in SC; auto. rewrite !(GEProofs5.Ec_cset H groups KW KR K1) in SC by (auto; first [apply X|apply X']).
    assert (X2 : gs g' a). { split; [|apply X]. apply (MC_share H groups KW KR KA K1 g g'); auto. apply X. rewrite SC. apply (MC_gof H groups KW KR K1); auto. apply X'. } 
    pose proof (at_new H groups KW KR KA K1 V [] [] gvr Rf RO g' a Hg' X2) as A2. assert (EC : cnr H groups g' (fst a) = cnr H groups g' (fst a')). { apply (cnr_iff H groups KW KR K1); auto. apply X2. apply X'. }
    assert (EP : iv H groups V g' a = iv H groups V g' a'). { destruct A2 as (_ & _ & A2), A' as (_ & _ & A'). rewrite <- A2, <- A', EC. f_equal. exact (eq_sym Q). } now apply (iv_inj H groups V g').
  Qed.
End Verts.
