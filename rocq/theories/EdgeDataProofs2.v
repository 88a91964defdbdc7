(** Data of the edges of the redistributed mesh: the groups at work. *)
From Verif Require Import Base EQCModel ReduceModel UtilProofs EQCProofs EQCProofs2 EQCProofs3 EQCProps ReduceProofs ReduceProps AggMapModel AggMapProofs GCModel GCProofs GCProofs2 GCProofs3 GCProps GEModel GEProofs GEProofs2 GEProofs3 GEProofs4 GEProofs5 GEProofs6 GEProofs7 GEProofs8 GESpec GEProofs9 GEProofs10 GECheck GEProps DataModel DataSpec DataProofs DataProofs2 DataProofs3 DataProofs4 AnnoyProofs EdgeDataSpec EdgeDataProofs.
Local Open Scope nat_scope.

Section Main.
  Variables (W V : list (list (list nat))) (groups : list (list nat)) (EI EC : list (list (list fedge))).
  Notation H := (map dist_procs W).
  Hypothesis HC : consistent W.
  Hypothesis HG : grouping (length W) groups.
  Hypothesis HV : vertex_tables H V.
  Hypothesis HE : edge_tables H V EI EC.
  Hypothesis HCL : groups_closed H groups.
  Variables (Rs : list cverts) (Es : list cedges) (data : list (list Z)).
  Notation ng := (length groups).
  Notation np := (length H).
  Notation grp g := (nth g groups []).
  Notation gvr := (gvr H V).
  Notation ei := (ei H V EI).
  Notation ec := (ec H V EC).
  Notation gf := (gf gvr).
  Notation MC := (MC H groups).
  Notation gof := (gof groups).
  Notation iv := (iv H groups V).
  Notation isv := (isv H groups V).
  Notation ise := (ise H groups V).
  Notation sp := (sp H groups V).
  Notation CL := (CL H groups V ei ec).
  Notation AG := (AG H groups V ec).
  Notation Ec := (Ec H groups).
  Notation an_at := (an_at H groups V ei ec).
  Notation E_ok := (E_ok H groups V EI EC gvr ei ec).
  Notation CN g := (length (ctab_of H groups g)).
  Notation tg := (tg groups).
  Notation Rf := (fun g => nth g Rs (mkV [] [] [])).
  Notation Ef := (fun g => nth g Es (mkE [] [] [] [] [] [])).
  Notation CT := (CT H groups).
  Notation NI := (NI H groups Ef).
  Notation NC := (NC H groups Ef).
  Notation NV := (NV H groups Rf).
  Notation re := (rank_edges EI EC).
  Notation n := (edges EI EC).
  Notation key := (key W V groups EI EC).
  Notation eim := (eim Es).
  Notation has_member := (has_member W V groups EI EC).
  Hypothesis LR : length Rs = ng.
  Hypothesis LE : length Es = ng.
  Hypothesis HR : forall g, g < ng -> vok W V groups g (Rf g).
  Hypothesis HEf : forall g, g < ng -> E_ok g (Ef g).
  Hypothesis HS : sizes_fit H n data.
  Let KW := HW W HC.
  Let KR := G_rank W groups HG.
  Let KA := G_all W groups HG.
  Let K1 := G_one W groups HG.
  Let KS := gr_sorted _ _ HG.
  Let KV := vt_rows _ _ HV.
  Let Kecok := ec_ok H V EI EC KW HV HE.
  Let Kdet := ec_det H V EI EC KW HV HE.
  Let Kecnd := ec_nd H V EI EC KW HV HE.
  Let Kecsw := ec_sw H V EI EC KW HV HE.
  Let Kcl := mclosed W groups HC HG HCL.
  Let NN := map (fun E => length (e_edges E)) Es.
  Let maps := map e_maps Es.
  Notation AGc := (fun g c => AG (Ec g c)).
  Notation Fs x := (Fsum ge ge_dec data np n key x).
  Notation here := (here ge ge_dec data key).
  Notation dE := (mkE [] [] [] [] [] []).
  Lemma NNn g : g < ng -> nth g NN 0 = length (CL g).
  Proof. intros Hg. unfold NN. rewrite (nth_map_ok _ _ _ dE) by lia. now apply (e_len W V groups EI EC Es). Qed.
  Lemma mps g : g < ng -> nth g maps [] = e_maps (Ef g).
  Proof. intros Hg. unfold maps. now rewrite (nth_map_ok _ _ _ dE) by lia. Qed.
  Lemma CTn g : g < ng -> length (nth g CT []) = CN g.
  Proof. intros Hg. now rewrite CT_nth. Qed.
  Lemma CTL : length CT = ng. Proof. apply (CTl W groups). Qed.
  Lemma pn g : g < ng -> 0 < length (grp g). Proof. intros Hg. pose proof (gr_some _ _ HG g Hg). destruct (grp g); [congruence|cbn; lia]. Qed.
  Lemma fM3 g : g < ng -> length (nth g maps []) = length (grp g) /\ 0 < length (grp g).
  Proof. intros Hg. split. rewrite mps by auto. apply (HEf g Hg). now apply pn. Qed.
  Lemma fM4 g k : g < ng -> k < length (grp g) -> rk groups g k < np /\ length (nth k (nth g maps []) []) = n (rk groups g k) /\ forall i, i < n (rk groups g k) -> nth i (nth k (nth g maps []) []) None = Some (eim g k i) /\ eim g k i < nth g NN 0.
  Proof. intros Hg Hk. rewrite mps, NNn by auto. split. now apply (rk_np W groups HG g k). split. now apply (len_map W V groups EI EC Es HEf g k). intros i Hi. destruct (mem W V groups EI EC HG HE Es HEf g k i Hg Hk Hi) as (A & B & _). auto. Qed.
  Lemma fK1 g k i : g < ng -> k < length (grp g) -> i < n (rk groups g k) -> nth (eim g k i) (CL g) dge = key (rk groups g k) i.
  Proof. intros Hg Hk Hi. apply (mem W V groups EI EC HG HE Es HEf g k i Hg Hk Hi). Qed.
  Lemma fSh g g' c c' : g < ng -> g' < ng -> c < length (nth g CT []) -> c' < length (nth g' CT []) -> members g (row CT g c) = members g' (row CT g' c') -> AG (Ec g c) = AG (Ec g' c').
  Proof. intros Hg Hg' _ _ Q. rewrite !CT_row in Q by auto. now rewrite Q. Qed.
  Lemma fNd g c : g < ng -> c < length (nth g CT []) -> NoDup (AG (Ec g c)).
  Proof. intros Hg Hc. rewrite CTn in Hc by auto. destruct (Ec_some W groups HC HG g c Hg Hc) as (D & D1 & D2 & D3). rewrite D3. now apply (AG_nodup H groups KW KR KA K1 KS V KV ec Kecok Kcl Kdet Kecnd Kecsw g D). Qed.
  Lemma kind g c x : g < ng -> c < length (nth g CT []) -> In x (AG (Ec g c)) -> ise g x /\ tg x = Ec g c.
  Proof. intros Hg Hc. rewrite CTn in Hc by auto. now apply (AG_kind W V groups EI EC). Qed.
  Lemma fCl g c c' x : g < ng -> c < length (nth g CT []) -> c' < length (nth g CT []) -> In x (AG (Ec g c)) -> In x (AG (Ec g c')) -> c = c'.
  Proof. intros Hg Hc Hc' X X'. destruct (kind g c x Hg Hc X) as (_ & A). destruct (kind g c' x Hg Hc' X') as (_ & B). rewrite CTn in Hc, Hc' by auto. apply (GEProofs6.Ec_inj H groups KW KR K1 g); auto. congruence. Qed.
  Lemma key_gf r i : r < np -> i < n r -> exists e, In e (re r) /\ snd e = i /\ key r i = sp (gof r) (gf r e) /\ ise (gof r) (gf r e) /\ gof r < ng.
  Proof. intros Hr Hi. destruct (edge_i W V EI EC HE r i Hr Hi) as (X & Q). exists (nth i (re r) dfe). split; auto. split; auto. split; auto. split. now apply (ise_rank W V groups EI EC HC HG HV HE). now apply (gof_r W groups HG). Qed.
  Lemma key_in r e g : r < np -> In e (re r) -> g < ng -> ise g (gf r e) -> key r (snd e) = sp g (gf r e).
  Proof. intros Hr X Hg I. destruct (edge_of W V EI EC HE r e Hr X) as (A & B). unfold EdgeDataProofs.key. rewrite B. apply (sp_shared H groups KW KR KA K1); auto. now apply (gof_r W groups HG). now apply (ise_rank W V groups EI EC HC HG HV HE). Qed.
  Lemma fH4 g c r i : g < ng -> c < length (nth g CT []) -> r < np -> i < n r -> In (key r i) (AG (Ec g c)) -> exists q, In q (members g (row CT g c)) /\ In r (grp q).
  Proof.
    intros Hg Hc Hr Hi X. destruct (kind g c _ Hg Hc X) as (_ & A). destruct (key_gf r i Hr Hi) as (e & E1 & E2 & E3 & E4 & E5). rewrite E3, tg_sp in A. exists (gof r). split. rewrite CT_row, <- A by auto. now apply (tg_self W V groups HC HG). now apply (gof_r W groups HG).
  Qed.
  Lemma fP1 g c l : g < ng -> c < length (nth g CT []) -> l < length (AG (Ec g c)) -> an_at g c l < length (CL g) /\ nth (an_at g c l) (CL g) dge = nth l (AG (Ec g c)) dge.
  Proof. intros Hg Hc Hl. rewrite CTn in Hc by auto. now apply (an_pos W V groups EI EC Rs Es LR LE). Qed.
  Lemma from g p : g < ng -> p < length (CL g) -> exists r e, r < np /\ In e (re r) /\ ise g (gf r e) /\ nth p (CL g) dge = sp g (gf r e).
  Proof. intros Hg Hp. destruct (from_rank W V groups EI EC HC HG HV HE HCL g (Ef g) (nth p (CL g) dge) Hg (HEf g Hg)) as (r & f & A). now apply nth_In. exists r, f. auto. Qed.
  Lemma fFr g c l : g < ng -> c < length (nth g CT []) -> l < length (AG (Ec g c)) -> exists r i, r < np /\ i < n r /\ key r i = nth l (AG (Ec g c)) dge.
  Proof.
    intros Hg Hc Hl. destruct (fP1 g c l Hg Hc Hl) as (A & B). destruct (from g _ Hg A) as (r & e & Hr & X & I & Q). exists r, (snd e). split; auto. split. now apply (edge_of W V EI EC HE). rewrite <- B, Q. now apply key_in.
  Qed.
  Lemma fann : map e_annoy Es = ann ge CT groups AGc an_at.
  Proof.
    apply (nth_ext_eq _ _ []). unfold ann. rewrite !map_length, seq_length. auto. intros g Hg. rewrite map_length in Hg. rewrite (nth_map_ok _ _ _ dE) by auto. unfold ann. rewrite (nth_map_ok _ _ _ 0) by (rewrite seq_length; lia). rewrite seq_nth by lia. cbn [Nat.add]. rewrite CTn by lia. apply (HEf g). lia.
  Qed.
  (** when two edges have the same key *)
  Lemma key_same r i r' e' g x : r < np -> i < n r -> r' < np -> In e' (re r') -> g < ng -> ise g (gf r' e') -> x = sp g (gf r' e') -> (key r i = x <-> same_ends H V r r' (nth i (re r) dfe) e').
  Proof.
    intros Hr Hi Hr' X' Hg I ->. destruct (edge_i W V EI EC HE r i Hr Hi) as (X & Q). split.
    - intros E. apply (gf_ends W V EI EC HC HV HE); auto. now apply (gf_uniq2 W V groups EI EC HC HV HE (gof r) g).
    - intros E. apply (gf_ends W V EI EC HC HV HE) in E; auto. rewrite <- Q at 1. rewrite <- E in *. now apply key_in.
  Qed.
  Definition edges_agree_ok : edge_values_agree H V EI EC data -> agree ge data np n key.
  Proof.
    intros AG r i r' i' Hr Hr' Hi Hi' Q. destruct (key_gf r' i' Hr' Hi') as (e' & E1 & E2 & E3 & E4 & E5). rewrite E3 in Q. apply (key_same r i r' e' _ _ Hr Hi Hr' E1 E5 E4 eq_refl) in Q. destruct (edge_i W V EI EC HE r i Hr Hi) as (X & Z). rewrite <- Z, <- E2. apply AG; auto.
  Qed.
  (** *** the result *)
  Definition result (d : bool) (out : list (list Z)) : Prop :=
    MapNodeData CT groups NN maps (map e_annoy Es) d data = Ret out /\ length out = ng /\ forall g, g < ng -> length (nth g out []) = length (CL g) /\
    (d = false -> forall p r i, p < length (CL g) -> r < np -> i < n r -> key r i = nth p (CL g) dge -> val data r i = val out g p) /\
    (d = true -> forall p, p < length (CL g) -> ((forall q, q < ng -> In (nth p (CL g) dge) (CL q) -> has_member q (nth p (CL g) dge)) -> val out g p = sumZ (map (fun k => sumZ (map (here (nth p (CL g) dge) (rk groups g k)) (seq 0 (n (rk groups g k))))) (seq 0 (length (grp g))))) /\
       ((exists q, q < ng /\ In (nth p (CL g) dge) (CL q) /\ ~ has_member q (nth p (CL g) dge)) -> val out g p = Fs (nth p (CL g) dge))).
  Lemma result_ok d : (d = false -> edge_values_agree H V EI EC data) -> exists out, result d out.
  Proof.
    intros AGR. destruct HS as (S1 & S2).
    assert (ML : length maps = ng) by (unfold maps; now rewrite map_length). assert (NL : length NN = ng) by (unfold NN; now rewrite map_length).
    assert (CLN : forall g, g < ng -> NoDup (CL g)) by (intros g Hg; now apply (cl_nd W V groups EI EC HC HG HV HE HCL Es HEf)).
    destruct (MapNodeData_annoy ge ge_dec dge CT groups maps NN data np n eim key CL AGc an_at (CT_world H groups KW KR KA K1)) with (d := d) as (out & E & L & P); auto.
    - now rewrite map_length.
    - apply CTL.
    - apply fM3.
    - apply fM4.
    - apply NNn.
    - apply fK1.
    - apply fP1.
    - apply fSh.
    - apply fNd.
    - apply fCl.
    - apply fH4.
    - apply fFr.
    - intros D. apply edges_agree_ok. auto.
    - exists out. split. now rewrite fann. split; auto. intros g Hg. destruct (P g Hg) as (P1 & P2 & P3). split; auto.
      assert (AN : forall p c, p < length (CL g) -> c < CN g -> In (nth p (CL g) dge) (AG (Ec g c)) -> holds ge ge_dec data np n key d (nth p (CL g) dge) (val out g p)).
      { intros p c Hp Hc X. destruct (In_nth _ _ dge X) as (l & Hl & Q). assert (Hc' := Hc). rewrite <- CTn in Hc' by auto. destruct (fP1 g c l Hg Hc' Hl) as (B1 & B2). assert (EP : an_at g c l = p). { apply (proj1 (NoDup_nth (CL g) dge) (CLN g Hg)); auto. congruence. } rewrite <- Q, <- EP. now apply P2. }
      assert (NA : forall p, p < length (CL g) -> (forall c, c < CN g -> ~ In (nth p (CL g) dge) (AG (Ec g c))) -> val out g p = nth p (outs groups NN data eim d g) 0%Z).
      { intros p Hp X. apply P3; auto. intros c l Hc Hl Q. destruct (fP1 g c l Hg Hc Hl) as (B1 & B2). rewrite CTn in Hc by auto. apply (X c Hc). rewrite <- Q, B2. now apply nth_In. }
      split.
      + intros -> p r i Hp Hr Hi Q. destruct (annoy_or W V groups EI EC HC HG HV HE HCL Es HEf g (nth p (CL g) dge) Hg) as [(c & Hc & X)|X]. now apply nth_In. apply (AN p c Hp Hc X); auto.
        destruct (Exists_dec (fun c => In (nth p (CL g) dge) (AG (Ec g c))) (seq 0 (CN g))) as [Y|Y]. intros c. apply (in_dec ge_dec). { apply Exists_exists in Y as (c & C & Y). apply in_seq in C. apply (AN p c Hp); auto. lia. }
        rewrite NA; auto. 2: { intros c C Z. apply Y. apply Exists_exists. exists c. split; auto. apply in_seq. lia. }
        destruct X as (k & f & Hk & F & Z). symmetry. destruct (part_cum ge dge CT groups maps NN data np n eim key CL) with (g := g) (p := p) (x := val data r i) as (_ & PC); auto using fM3, fM4, NNn, fK1, CTL. { intros r' i' Hr' Hi' Q'. apply edges_agree_ok; auto. congruence. }
        destruct (edge_of W V EI EC HE _ f (rk_np W groups HG g k Hg Hk) F) as (F1 & F2). apply (PC k (snd f)); auto. rewrite Z. now apply (key_e W V groups EI EC).
      + intros -> p Hp. split.
        * intros M. rewrite NA; auto. apply (part_sum ge ge_dec dge CT groups maps NN data np n eim key CL); auto using fM3, fM4, NNn, fK1, CTL.
          intros c Hc X. destruct (annoy_no W V groups EI EC HC HG HV HE HCL Es HEf g c _ Hg Hc X) as (q & Hq & Y & N). apply N. now apply M.
        * intros (q & Hq & Y & N). destruct (annoy_all W V groups EI EC HC HG HV HE HCL Es HEf g q _ Hg Hq Y N) as (c & Hc & X). now apply nth_In. exact (AN p c Hp Hc X).
  Qed.
  (** *** totals *)
  Lemma old_total r e g : r < np -> In e (re r) -> g < ng -> ise g (gf r e) -> edge_total H V EI EC data r e = Fs (sp g (gf r e)).
  Proof.
    intros Hr X Hg I. unfold edge_total, Fsum. apply sumZ_ext. intros r' R'. apply in_seq in R'. rewrite (sum_list_seq _ dfe). apply sumZ_ext. intros i Hi. apply in_seq in Hi. assert (Hi' : i < n r') by (cbn in Hi; exact (proj2 Hi)). destruct (edge_i W V EI EC HE r' i) as (X' & Q); auto; [lia|]. rewrite Q. unfold AnnoyProofs.here.
    pose proof (key_same r' i r e g _ ltac:(lia) Hi' Hr X Hg I eq_refl) as K. assert (SB : same_ends_b H V r r' e (nth i (re r') dfe) = true <-> same_ends H V r r' e (nth i (re r') dfe)). { unfold same_ends_b, same_ends. rewrite andb_true_iff, !same_vertex_iff. tauto. }
    assert (SY : same_ends H V r' r (nth i (re r') dfe) e <-> same_ends H V r r' e (nth i (re r') dfe)). { rewrite <- !(gf_ends W V EI EC HC HV HE) by (auto; lia). split; auto. }
    destruct (ge_dec _ _) as [D|D]; destruct (same_ends_b _ _ _ _ _ _); auto; exfalso.
    - assert (false = true); [|discriminate]. apply SB, SY, K, D.
    - apply D, K, SY, SB. reflexivity.
  Qed.
  Lemma nr p g : g < ng -> p < length (CL g) -> edge_nr (Ef g) p = (im H groups V g (nth p (CL g) dge), p).
  Proof. intros Hg Hp. apply (edge_nr_ok H groups V EI EC gvr ei ec g (Ef g) p); auto. Qed.
  Lemma new_same g g' p p' : g < ng -> g' < ng -> p < length (CL g) -> p' < length (CL g') -> (same_ends CT NV g g' (edge_nr (Ef g) p) (edge_nr (Ef g') p') <-> nth p (CL g) dge = nth p' (CL g') dge).
  Proof.
    intros Hg Hg' Hp Hp'. cbv beta. rewrite !nr by auto. unfold im, same_ends. cbn [fst snd]. destruct (cl_ise W V groups EI EC HC HG HV HE HCL Es HEf g (nth p (CL g) dge) Hg) as ((I1 & I2) & _). now apply nth_In. destruct (cl_ise W V groups EI EC HC HG HV HE HCL Es HEf g' (nth p' (CL g') dge) Hg') as ((J1 & J2) & _). now apply nth_In.
    rewrite !(iv_same W V groups HC HG Rs HR) by auto. destruct (nth p (CL g) dge), (nth p' (CL g') dge). cbn [fst snd]. split. intros (-> & ->). reflexivity. intros Q. injection Q as -> ->. auto.
  Qed.
  Lemma new_edges g : g < ng -> rank_edges NI NC g = map (edge_nr (Ef g)) (seq 0 (length (CL g))).
  Proof. intros Hg. apply (rank_new H groups V EI EC gvr ei ec Ef); auto. Qed.
  Lemma new_count g : g < ng -> edges NI NC g = length (CL g).
  Proof. intros Hg. unfold edges. rewrite new_edges, map_length, seq_length by auto. reflexivity. Qed.
  Lemma new_total out g p : g < ng -> p < length (CL g) ->
    edge_total CT NV NI NC out g (edge_nr (Ef g) p) = sumZ (map (fun g' => sumZ (map (fun p' => if ge_dec (nth p' (CL g') dge) (nth p (CL g) dge) then val out g' p' else 0%Z) (seq 0 (length (CL g'))))) (seq 0 ng)).
  Proof.
    intros Hg Hp. unfold edge_total. rewrite CTL. apply sumZ_ext. intros g' G'. apply in_seq in G'. rewrite new_edges, map_map by lia. apply sumZ_ext. intros p' P'. apply in_seq in P'. cbv beta. rewrite (nr p' g') at 2 by lia. cbn [snd].
    assert (SB : same_ends_b CT NV g g' (edge_nr (Ef g) p) (edge_nr (Ef g') p') = true <-> same_ends CT NV g g' (edge_nr (Ef g) p) (edge_nr (Ef g') p')). { unfold same_ends_b, same_ends. rewrite andb_true_iff, !same_vertex_iff. tauto. }
    rewrite new_same in SB by lia. destruct (ge_dec _ _) as [D|D]; destruct (same_ends_b _ _ _ _ _ _); auto; exfalso. now assert (false = true) by (apply SB; congruence). apply D. symmetry. now apply SB.
  Qed.
  Lemma all_have out g p : g < ng -> p < length (CL g) -> result true out -> (forall q, q < ng -> In (nth p (CL g) dge) (CL q) -> has_member q (nth p (CL g) dge)) -> edge_total CT NV NI NC out g (edge_nr (Ef g) p) = Fs (nth p (CL g) dge).
  Proof.
    intros Hg Hp (_ & _ & P) M. rewrite new_total by auto. set (x := nth p (CL g) dge) in *. transitivity (sumZ (map (fun g' => sumZ (map (fun k => sumZ (map (here x (rk groups g' k)) (seq 0 (n (rk groups g' k))))) (seq 0 (length (grp g'))))) (seq 0 ng))).
    2: { exact (sum_groups np groups (fun r => sumZ (map (here x r) (seq 0 (n r)))) ltac:(now rewrite map_length)). }
    apply sumZ_ext. intros g' G'. apply in_seq in G'. destruct (P g') as (_ & _ & P1); [lia|]. specialize (P1 eq_refl). destruct (in_dec ge_dec x (CL g')) as [X|X].
    - destruct (In_nth _ _ dge X) as (p' & Hp' & Q). rewrite (sumZ_single _ _ p' Hp').
      + rewrite Q. destruct (ge_dec x x); [|congruence]. rewrite <- Q. apply P1; auto. now rewrite Q.
      + intros p2 Hp2 N. destruct (ge_dec _ _) as [D|D]; auto. exfalso. apply N. apply (proj1 (NoDup_nth (CL g') dge) (cl_nd W V groups EI EC HC HG HV HE HCL Es HEf g' ltac:(lia))); auto. congruence.
    - transitivity 0%Z; [|symmetry]; apply sumZ_zero.
      + intros p' P'. apply in_seq in P'. destruct (ge_dec _ _) as [D|D]; auto. exfalso. apply X. rewrite <- D. apply nth_In. lia.
      + intros k K. apply in_seq in K. apply sumZ_zero. intros i I. apply in_seq in I. unfold AnnoyProofs.here. destruct (ge_dec _ _) as [D|D]; auto. exfalso. apply X. rewrite <- D. destruct (fM4 g' k) as (_ & _ & Z); try lia. destruct (Z i) as (_ & Z2). exact (proj2 I). rewrite NNn in Z2 by lia. rewrite <- fK1; try lia. now apply nth_In.
  Qed.
  Lemma sum_const (f : nat -> Z) x l : (forall q, In q l -> f q = x) -> sumZ (map f l) = (Z.of_nat (length l) * x)%Z.
  Proof. induction l as [|a l IH]; intros A. reflexivity. cbn [map length]. unfold sumZ in *. cbn [fold_right]. rewrite IH by (intros; apply A; now right). rewrite A by now left. lia. Qed.
  Lemma some_lack out g p Q : g < ng -> p < length (CL g) -> result true out -> (exists q, q < ng /\ In (nth p (CL g) dge) (CL q) /\ ~ has_member q (nth p (CL g) dge)) ->
    NoDup Q -> (forall q, In q Q <-> q < ng /\ In (nth p (CL g) dge) (CL q)) -> edge_total CT NV NI NC out g (edge_nr (Ef g) p) = (Z.of_nat (length Q) * Fs (nth p (CL g) dge))%Z.
  Proof.
    intros Hg Hp (_ & _ & P) M ND HQ. rewrite new_total by auto. set (x := nth p (CL g) dge) in *. rewrite <- (sum_in_seq _ ng Q ND).
    - apply sum_const. intros q Y. apply HQ in Y as (Hq & X). destruct (P q Hq) as (_ & _ & P1). specialize (P1 eq_refl). destruct (In_nth _ _ dge X) as (p' & Hp' & Z). rewrite (sumZ_single _ _ p' Hp').
      + rewrite Z. destruct (ge_dec x x); [|congruence]. rewrite <- Z. apply P1; auto. now rewrite Z.
      + intros p2 Hp2 N. destruct (ge_dec _ _) as [D|D]; auto. exfalso. apply N. apply (proj1 (NoDup_nth (CL q) dge) (cl_nd W V groups EI EC HC HG HV HE HCL Es HEf q Hq)); auto. congruence.
    - intros q Y. now apply HQ.
    - intros q Hq N. apply sumZ_zero. intros p' P'. apply in_seq in P'. destruct (ge_dec _ _) as [D|D]; auto. exfalso. apply N. apply HQ. split; auto. rewrite <- D. apply nth_In. lia.
  Qed.
  Lemma bec_cl r e g p : r < np -> In e (re r) -> g < ng -> R_full W V groups EI EC g (Rf g) -> (forall g, g < ng -> R_full W V groups EI EC g (Rf g)) -> becomes H V groups Rs Es r e g p -> p < length (CL g) /\ nth p (CL g) dge = sp g (gf r e) /\ ise g (gf r e) /\ key r (snd e) = nth p (CL g) dge /\ snd e < n r.
  Proof.
    intros Hr X Hg _ HF B. apply (becomes_iff W V groups EI EC HC HG HV HE HCL Rs Es LR LE HF HEf) in B; auto. destruct B as (B1 & B2 & B3). split; auto. split; auto. split; auto. split. rewrite B2. now apply key_in. now apply (edge_of W V EI EC HE).
  Qed.
End Main.
Lemma verts_of_mesh W groups V EI EC Cs Rs Es : contract_mesh (map dist_procs W) groups V EI EC = Ret (Cs, Rs, Es) -> contract_verts (map dist_procs W) groups V = Ret (Cs, Rs).
Proof. unfold contract_mesh, contract_verts. destruct (mapM _ _); cbn [bind]; [|discriminate]. destruct (mapM _ _); cbn [bind]; [|discriminate]. destruct (map_edges _ _ _ _ _); cbn [bind]; [|discriminate]. intros Q. now injection Q as -> -> _. Qed.
