(** GetDofedEdgeUDofs *)
From Verif Require Import Base ArraysModel SMapModel SMapProofs SMapProofs2 SMapProofs3 SMapProofs8 SMapProofs9 SMeshModel SMeshProofs2.
Import ListNotations.

Definition memn (e : nat) (es : list nat) : bool := existsb (Nat.eqb e) es.
Lemma memn_In e es : memn e es = true <-> In e es.
Proof. unfold memn. rewrite existsb_exists. split; [intros (x & A & B); apply Nat.eqb_eq in B; subst; auto|]. intros H. exists e. split; auto. apply Nat.eqb_refl. Qed.
Lemma memn_not e es : memn e es = false <-> ~ In e es.
Proof. rewrite <- memn_In. destruct (memn e es); split; congruence. Qed.
(** the edges shared with process p in the order of the equivalence classes; the distant processes of an edge *)
Definition seg_edges (segs : list (list Z * list nat)) (p : Z) : list nat := concat (map snd (filter (fun s => mem p (fst s)) segs)).
Definition edge_dps (segs : list (list Z * list nat)) (e : nat) : list Z :=
  match find (fun s => memn e (snd s)) segs with Some s => fst s | None => [] end.

Section Fold.
  Variable des : list bool.
  Variable e2d : list Z.
  Variable keep : list nat.
  Variable ne : nat.
  Hypothesis Ldes : length des = ne.
  Hypothesis Le2d : length e2d = ne.
  Hypothesis Hdof : forall e, (e < ne)%nat -> nth e des false = true -> exists d, nth e e2d 0%Z = Z.of_nat d /\ (d < length keep)%nat /\ nth d keep O = e.
  Hypothesis Hnot : forall e, In e keep -> nth e des false = true.
  Hypothesis Nkeep : NoDup keep.
  Variable G : Z -> nat -> Z.

  Lemma edges_ok p : forall es row pr t, (forall j, (j < length es)%nat -> nth (pr + j) row 0%Z = G p (nth j es O)) -> (pr + length es <= length row)%nat -> NoDup es -> (forall e, In e es -> (e < ne)%nat) -> length t = length keep ->
    exists t', foldM (cdps_edge des e2d row p) es (pr, t) = Ret ((pr + length es)%nat, t') /\ length t' = length keep /\
      forall d, (d < length keep)%nat -> nth d t' [] = nth d t [] ++ (if memn (nth d keep O) es && (G p (nth d keep O) =? 1)%Z then [p] else []).
  Proof.
    induction es as [|e es IH]; intros row pr t H L N R Lt.
    - exists t. split; [cbn; rewrite Nat.add_0_r; reflexivity|]. split; auto. intros d Hd. cbn. rewrite app_nil_r. reflexivity.
    - inversion N as [|? ? N1 N2]; subst x l. cbn [length] in L. cbn [foldM]. unfold cdps_edge at 1. rewrite (rd_ok row pr 0%Z) by lia. cbn [bind].
      pose proof (H 0%nat ltac:(cbn; lia)) as H0. rewrite Nat.add_0_r in H0. cbn [nth] in H0. rewrite H0.
      assert (HS : forall j, (j < length es)%nat -> nth (S pr + j) row 0%Z = G p (nth j es O)). { intros j Hj. specialize (H (S j) ltac:(cbn; lia)). cbn [nth] in H. rewrite <- H. f_equal. lia. }
      assert (Re : (e < ne)%nat) by (apply R; cbn; auto). assert (R' : forall e0, In e0 es -> (e0 < ne)%nat) by (intros; apply R; cbn; auto).
      assert (SK : forall t0, length t0 = length keep -> (forall d, (d < length keep)%nat -> nth d t0 [] = nth d t [] ++ (if (nth d keep O =? e)%nat && (G p e =? 1)%Z then [p] else [])) ->
         exists t', foldM (cdps_edge des e2d row p) es (S pr, t0) = Ret ((pr + length (e :: es))%nat, t') /\ length t' = length keep /\
           forall d, (d < length keep)%nat -> nth d t' [] = nth d t [] ++ (if memn (nth d keep O) (e :: es) && (G p (nth d keep O) =? 1)%Z then [p] else [])).
      { intros t0 L0 H1. destruct (IH row (S pr) t0 HS ltac:(lia) N2 R' L0) as (t' & E' & L' & F'). exists t'. split; [rewrite E'; cbn [length]; do 2 f_equal; lia|]. split; auto.
        intros d Hd. rewrite F', H1 by auto. rewrite <- app_assoc. f_equal. unfold memn at 2. cbn [existsb]. fold (memn (nth d keep O) es). destruct (Nat.eqb_spec (nth d keep O) e) as [X|X].
        - rewrite X. assert (Y : memn e es = false) by (apply memn_not; auto). rewrite Y. cbn [orb andb]. rewrite app_nil_r. reflexivity.
        - cbn [orb andb app]. reflexivity. }
      destruct (Z.eqb_spec (G p e) 1) as [G1|G1].
      + rewrite (rd_ok des e false) by lia. cbn [bind]. destruct (nth e des false) eqn:DE.
        * destruct (Hdof e Re DE) as (d & E1 & E2 & E3). unfold rdz. destruct (Z.ltb_spec (Z.of_nat e) 0); [lia|]. rewrite Nat2Z.id. rewrite (rd_ok e2d e 0%Z) by lia. cbn [bind]. rewrite E1. destruct (Z.ltb_spec (Z.of_nat d) 0); [lia|]. rewrite Nat2Z.id.
          unfold addrow. rewrite (rd_ok t d []) by lia. cbn [bind]. rewrite wr_ok by lia. cbn [bind]. apply SK; [rewrite upd_length; auto|]. intros d' Hd'. destruct (Nat.eq_dec d' d) as [->|NE].
          -- rewrite nth_upd_eq by lia. rewrite E3, Nat.eqb_refl. reflexivity.
          -- rewrite nth_upd_neq by auto. destruct (Nat.eqb_spec (nth d' keep O) e) as [X|X]; [|cbn [andb]; rewrite app_nil_r; reflexivity]. exfalso. apply NE. rewrite NoDup_nth with (d := O) in Nkeep. apply Nkeep; auto. congruence.
        * apply SK; auto. intros d Hd. destruct (Nat.eqb_spec (nth d keep O) e) as [X|X]; [|cbn [andb]; rewrite app_nil_r; reflexivity]. exfalso. assert (nth e des false = true) by (apply Hnot; rewrite <- X; apply nth_In; auto). congruence.
      + cbn [bind]. apply SK; auto. intros d Hd. rewrite andb_false_r, app_nil_r. reflexivity.
  Qed.

  Variable all : list Z.
  Hypothesis Sall : StronglySorted Z.lt all.
  Variable segs0 : list (list Z * list nat).
  Let recv := map (fun p => map (G p) (seg_edges segs0 p)) all.
  Definition contr (e : nat) (s : list Z * list nat) : list Z := if memn e (snd s) then filter (fun p => (G p e =? 1)%Z) (fst s) else [].

  Lemma procs_ok done es rest : segs0 = done ++ (rest : list (list Z * list nat)) -> forall s rest', rest = s :: rest' -> es = snd s -> NoDup es -> (forall e, In e es -> (e < ne)%nat) -> NoDup (fst s) -> incl (fst s) all ->
    forall ps qs cnt t, fst s = qs ++ ps -> length cnt = length all -> length t = length keep ->
    (forall i, (i < length all)%nat -> nth i cnt O = (length (seg_edges done (nth i all 0%Z)) + (if mem (nth i all 0%Z) qs then length es else 0))%nat) ->
    exists cnt' t', foldM (cdps_proc all recv des e2d es) ps (cnt, t) = Ret (cnt', t') /\ length cnt' = length all /\ length t' = length keep /\
      (forall i, (i < length all)%nat -> nth i cnt' O = (length (seg_edges done (nth i all 0%Z)) + (if mem (nth i all 0%Z) (fst s) then length es else 0))%nat) /\
      forall d, (d < length keep)%nat -> nth d t' [] = nth d t [] ++ (if memn (nth d keep O) es then filter (fun p => (G p (nth d keep O) =? 1)%Z) ps else []).
  Proof.
    intros SP s rest' Er Ees Nes Res Nps Ips. induction ps as [|p ps IH]; intros qs cnt t Es Lc Lt Hc.
    - exists cnt, t. split; [reflexivity|]. split; auto. split; auto. rewrite app_nil_r in Es. split; [rewrite Es; auto|]. intros d Hd. cbn [filter]. destruct (memn _ _); rewrite app_nil_r; reflexivity.
    - assert (Ip : In p (fst s)) by (rewrite Es; apply in_app_iff; cbn; auto).
      destruct (posn_ok p all Sall (Ips p Ip)) as (i & E & Hi & Ei). cbn [foldM]. unfold cdps_proc at 1. rewrite E. cbn [bind]. rewrite (rd_ok recv i []) by (unfold recv; rewrite map_length; auto). cbn [bind]. rewrite (rd_ok cnt i O) by lia. cbn [bind].
      assert (Np : ~ In p qs /\ ~ In p ps). { rewrite Es in Nps. apply NoDup_remove_2 in Nps. rewrite in_app_iff in Nps. tauto. }
      assert (Mq : mem p qs = false) by (apply mem_not; tauto).
      rewrite Hc, Ei, Mq, Nat.add_0_r by auto.
      assert (ROW : nth i recv [] = map (G p) (seg_edges done p) ++ map (G p) es ++ map (G p) (seg_edges rest' p)).
      { unfold recv. rewrite (nth_map_in _ _ _ _ 0%Z) by auto. rewrite Ei, SP, Er. unfold seg_edges. rewrite filter_app. cbn [filter]. assert (X : mem p (fst s) = true) by (apply mem_In; auto). rewrite X. rewrite !map_app. cbn [map]. rewrite concat_app. cbn [concat]. rewrite !map_app, Ees. reflexivity. }
      destruct (edges_ok p es (nth i recv []) (length (seg_edges done p)) t) as (t1 & E1 & L1 & F1); auto.
      { intros j Hj. rewrite ROW, app_nth2 by (rewrite map_length; lia). rewrite map_length. replace (length (seg_edges done p) + j - length (seg_edges done p))%nat with j by lia. rewrite app_nth1 by (rewrite map_length; auto). apply nth_map_in; auto. }
      { rewrite ROW, !app_length, !map_length. lia. }
      rewrite E1. cbn [bind]. rewrite wr_ok by lia. cbn [bind].
      destruct (IH (qs ++ [p]) (upd cnt i (length (seg_edges done p) + length es)%nat) t1) as (cnt' & t' & E' & Lc' & Lt' & Hc' & F'); auto.
      { rewrite <- app_assoc. exact Es. } { rewrite upd_length. auto. }
      { intros j Hj. assert (MA : mem (nth j all 0%Z) (qs ++ [p]) = mem (nth j all 0%Z) qs || (nth j all 0%Z =? p)%Z) by (unfold mem; rewrite existsb_app; cbn [existsb]; rewrite orb_false_r; reflexivity). rewrite MA. destruct (Nat.eq_dec j i) as [->|NE].
        - rewrite nth_upd_eq by lia. rewrite Ei, Z.eqb_refl, orb_true_r. reflexivity.
        - rewrite nth_upd_neq by auto. rewrite Hc by auto. destruct (Z.eqb_spec (nth j all 0%Z) p) as [X|X]; [|rewrite orb_false_r; reflexivity]. exfalso. apply NE. pose proof (lt_NoDup _ Sall) as ND. rewrite NoDup_nth with (d := 0%Z) in ND. apply ND; auto. congruence. }
      exists cnt', t'. split; [exact E'|]. split; auto. split; auto. split; auto. intros d Hd. rewrite F', F1 by auto. rewrite <- app_assoc. f_equal. cbn [filter]. destruct (memn (nth d keep O) es); cbn [andb app]; auto. destruct (_ =? 1)%Z; reflexivity.
  Qed.
  Lemma segs_ok : (forall s, In s segs0 -> NoDup (fst s) /\ incl (fst s) all /\ NoDup (snd s) /\ forall e, In e (snd s) -> (e < ne)%nat) ->
    forall rest done cnt t, segs0 = done ++ rest -> length cnt = length all -> length t = length keep ->
    (forall i, (i < length all)%nat -> nth i cnt O = length (seg_edges done (nth i all 0%Z))) ->
    exists cnt' t', foldM (cdps_seg all recv des e2d) rest (cnt, t) = Ret (cnt', t') /\ length t' = length keep /\
      forall d, (d < length keep)%nat -> nth d t' [] = nth d t [] ++ concat (map (contr (nth d keep O)) rest).
  Proof.
    intros HS. induction rest as [|s rest IH]; intros done cnt t SP Lc Lt Hc.
    - exists cnt, t. split; [reflexivity|]. split; auto. intros d Hd. cbn. rewrite app_nil_r. reflexivity.
    - destruct (HS s) as (N1 & I1 & N2 & R2). { rewrite SP. apply in_app_iff. cbn; auto. }
      cbn [foldM]. unfold cdps_seg at 1. destruct (procs_ok done (snd s) (s :: rest) SP s rest eq_refl eq_refl N2 R2 N1 I1 (fst s) [] cnt t eq_refl Lc Lt) as (c1 & t1 & E1 & Lc1 & Lt1 & Hc1 & F1). { intros i Hi. rewrite Hc by auto. cbn. lia. }
      rewrite E1. cbn [bind]. destruct (IH (done ++ [s]) c1 t1) as (c2 & t2 & E2 & Lt2 & F2); auto. { rewrite <- app_assoc. exact SP. }
      { intros i Hi. rewrite Hc1 by auto. unfold seg_edges. rewrite filter_app, map_app, concat_app, app_length. f_equal. cbn [filter]. destruct (mem _ (fst s)); cbn [map concat]; [rewrite app_nil_r|]; reflexivity. }
      exists c2, t2. split; [exact E2|]. split; auto. intros d Hd. rewrite F2, F1 by auto. cbn [map concat]. rewrite <- app_assoc. reflexivity.
  Qed.
  Lemma contr_dps e : forall segs, NoDup (concat (map snd segs)) -> concat (map (contr e) segs) = filter (fun p => (G p e =? 1)%Z) (edge_dps segs e).
  Proof.
    induction segs as [|s segs IH]; intros N; [reflexivity|]. cbn [map concat] in *. assert (N1 : NoDup (concat (map snd segs))). { clear -N. induction (snd s) as [|x l IHl]; auto. inversion N; auto. }
    unfold edge_dps. cbn [find]. unfold contr at 1. destruct (memn e (snd s)) eqn:M.
    - assert (X : ~ In e (concat (map snd segs))). { apply memn_In in M. clear -N M. induction (snd s) as [|x l IHl]; [destruct M|]. cbn [app] in N. inversion N as [|? ? A B]; subst. destruct M as [->|M]; auto. intros Q. apply A, in_app_iff. auto. }
      replace (concat (map (contr e) segs)) with (@nil Z); [rewrite app_nil_r; reflexivity|]. clear -X. induction segs as [|s segs IH]; auto. cbn [map concat] in *. rewrite <- IH by (intros Q; apply X, in_app_iff; auto). unfold contr. destruct (memn e (snd s)) eqn:M; auto. exfalso. apply memn_In in M. apply X, in_app_iff. auto.
    - cbn [app]. apply IH; auto.
  Qed.
End Fold.

(** what the meshes of all processes have to satisfy *)
Definition dM : meshd := mkM [] [] [] [].
Definition edge_table (M : meshd) : list (list Z) := map (edge_dps (m_segs M)) (seq 0 (length (m_edges M))).
Record wf_meshes (W : list meshd) (gid : nat -> nat -> nat) : Prop := mkWM {
  wm_con : consistent (map m_all W) (map edge_table W) gid;
  wm_segs : forall M s, In M W -> In s (m_segs M) -> NoDup (fst s) /\ incl (fst s) (m_all M);
  wm_edges : forall M, In M W -> NoDup (concat (map snd (m_segs M))) /\ forall e, In e (concat (map snd (m_segs M))) -> (e < length (m_edges M))%nat;
  wm_ends : forall M, In M W -> ends_ok (length (m_gvs M)) (m_edges M);
  wm_order : forall r p, (r < length W)%nat -> (p < length W)%nat -> map (gid r) (seg_edges (m_segs (nth r W dM)) (Z.of_nat p)) = map (gid p) (seg_edges (m_segs (nth p W dM)) (Z.of_nat r))
}.
Section UDofs.
  Variable W : list meshd.
  Variable gid : nat -> nat -> nat.
  Hypothesis HW : wf_meshes W gid.
  Notation np := (length W).
  Notation MM r := (nth r W dM).
  Notation alls := (map m_all W).
  Notation dpss := (map edge_table W).
  Definition keepE (r k : nat) : bool := solid (m_gvs (MM r)) (nth k (m_edges (MM r)) (O, O)).
  Definition dd (M : meshd) := (map (solid (m_gvs M)) (m_edges M), dofed_nrs (m_gvs M) (m_edges M), row_map (rems (m_gvs M) (m_edges M)) 0).
  Definition flg (M : meshd) (e : nat) : Z := if solid (m_gvs M) (nth e (m_edges M) (O, O)) then 1%Z else 0%Z.
  Lemma dpss_nth r : (r < np)%nat -> nth r dpss [] = edge_table (MM r). Proof. intros H. apply nth_map_in; auto. Qed.
  Lemma alls_nth r : (r < np)%nat -> nth r alls [] = m_all (MM r). Proof. intros H. apply nth_map_in; auto. Qed.
  Lemma et_len M : length (edge_table M) = length (m_edges M). Proof. unfold edge_table. rewrite map_length, seq_length. auto. Qed.

  Lemma de_send_ok M : In M W -> StronglySorted Z.lt (m_all M) -> exists t, de_send M (map (solid (m_gvs M)) (m_edges M)) = Ret t /\ length t = length (m_all M) /\
     forall i, (i < length (m_all M))%nat -> nth i t [] = map (flg M) (seg_edges (m_segs M) (nth i (m_all M) 0%Z)).
  Proof.
    intros I Sall. unfold de_send. destruct (wm_edges _ _ HW M I) as [_ R].
    assert (E : mapM (fun s => flags (map (solid (m_gvs M)) (m_edges M)) (snd s)) (m_segs M) = Ret (map (fun s => map (flg M) (snd s)) (m_segs M))).
    { apply mapM_ok. intros s Hs. unfold flags. apply mapM_ok. intros e He. assert (e < length (m_edges M))%nat by (apply R, in_concat; exists (snd s); split; auto; apply in_map; auto).
      rewrite (rd_ok _ e false) by (rewrite map_length; auto). cbn [bind]. rewrite (nth_map_in _ _ _ _ (O, O)) by auto. reflexivity. }
    rewrite E. cbn [bind]. destruct (send_table_ok (m_all M) Sall (map fst (m_segs M)) (map (fun s => map (flg M) (snd s)) (m_segs M))) as (t & E1 & L & F).
    { apply Forall_forall. intros ps Hps. apply in_map_iff in Hps. destruct Hps as (s & <- & Hs). apply (wm_segs _ _ HW M); auto. }
    exists t. split; auto. split; auto. intros i Hi. rewrite F by auto. unfold chan, seg_edges. generalize (nth i (m_all M) 0%Z) as p. clear. intros p. induction (m_segs M) as [|s segs IH]; auto. cbn [map combine filter fst]. destruct (mem p (fst s)); cbn [map concat snd]; [rewrite map_app; f_equal|]; apply IH.
  Qed.
  Variable r : nat.
  Hypothesis Hr : (r < np)%nat.
  (** the flag another process has for an edge of process r *)
  Definition GF (p : Z) (e : nat) : Z := if stays dpss gid keepE (Z.to_nat p) (gid r e) then 1%Z else 0%Z.
  Lemma shared_flags p : (p < np)%nat -> map (flg (MM p)) (seg_edges (m_segs (MM p)) (Z.of_nat r)) = map (GF (Z.of_nat p)) (seg_edges (m_segs (MM r)) (Z.of_nat p)).
  Proof.
    intros Hp. pose proof (wm_order _ _ HW r p Hr Hp) as E.
    assert (A : map (flg (MM p)) (seg_edges (m_segs (MM p)) (Z.of_nat r)) = map (fun g => if stays dpss gid keepE p g then 1%Z else 0%Z) (map (gid p) (seg_edges (m_segs (MM p)) (Z.of_nat r)))).
    { rewrite map_map. apply map_ext_in. intros e He. assert (e < length (m_edges (MM p)))%nat.
      { destruct (wm_edges _ _ HW (MM p) (nth_In _ _ Hp)) as [_ R]. apply R. unfold seg_edges in He. apply in_concat in He. destruct He as (es & A & B). apply in_map_iff in A. destruct A as (s & <- & A). apply filter_In in A. apply in_concat. exists (snd s). split; auto. apply in_map. tauto. }
      rewrite (stays_ok _ _ _ (wm_con _ _ HW)) by (rewrite dpss_nth, et_len by auto; auto). reflexivity. }
    rewrite A, <- E, map_map. apply map_ext. intros e. unfold GF. rewrite Nat2Z.id. reflexivity.
  Qed.
  Theorem udofs_ok : GetDofedEdgeUDofs W r = Ret (newdps dpss gid keepE r).
  Proof.
    pose proof (wm_con _ _ HW) as HC. assert (NPL : length alls = np) by apply map_length.
    unfold GetDofedEdgeUDofs. rewrite (mapM_ok _ dd) by (intros M HM; apply SetUp_ok, (wm_ends _ _ HW M HM)). cbn [bind].
    assert (SALL : forall p, (p < np)%nat -> StronglySorted Z.lt (m_all (MM p))). { intros p Hp. rewrite <- alls_nth by auto. apply (con_sorted _ _ _ HC). rewrite NPL; auto. }
    assert (CB : combine W (map dd W) = map (fun M => (M, dd M)) W) by (clear; induction W as [|M l IH]; [reflexivity|cbn [map combine]; rewrite IH; reflexivity]). rewrite CB.
    assert (SENT : exists sent, mapM (fun x : meshd * (list bool * list nat * list Z) => de_send (fst x) (fst (fst (snd x)))) (map (fun M => (M, dd M)) W) = Ret sent /\ length sent = np /\ forall p, (p < np)%nat -> length (nth p sent []) = length (m_all (MM p)) /\
       forall i, (i < length (m_all (MM p)))%nat -> nth i (nth p sent []) [] = map (flg (MM p)) (seg_edges (m_segs (MM p)) (nth i (m_all (MM p)) 0%Z))).
    { destruct (mapM_from (fun x : meshd * (list bool * list nat * list Z) => de_send (fst x) (fst (fst (snd x)))) (fun x t => length t = length (m_all (fst x)) /\ forall i, (i < length (m_all (fst x)))%nat -> nth i t [] = map (flg (fst x)) (seg_edges (m_segs (fst x)) (nth i (m_all (fst x)) 0%Z))) (map (fun M => (M, dd M)) W)) as (sent & E & F2).
      - intros x Hx. apply in_map_iff in Hx. destruct Hx as (M & <- & HM). cbn [fst snd dd]. apply de_send_ok; auto. destruct (In_nth _ _ dM HM) as (p & Hp & <-). auto.
      - exists sent. split; auto. assert (LS : length sent = np) by (apply F2_length in F2; rewrite map_length in F2; lia). split; auto. intros p Hp.
        assert (Q : forall (l : list (meshd * (list bool * list nat * list Z))) t R, Forall2 R l t -> forall p, (p < length l)%nat -> R (nth p l (dM, dd dM)) (nth p t ([] : list (list Z)))).
        { clear. induction 1; intros p Hp; [cbn in Hp; lia|]. destruct p; auto. cbn [nth]. apply IHForall2. cbn in Hp; lia. }
        specialize (Q _ _ _ F2 p). rewrite map_length in Q. specialize (Q Hp). cbv beta in Q. rewrite (nth_map_in (fun M => (M, dd M)) W p (dM, dd dM) dM Hp) in Q. exact Q. }
    destruct SENT as (sent & E1 & LS & HS). rewrite E1. cbn [bind].
    assert (EX : exchange alls sent r = Ret (map (fun p => map (GF p) (seg_edges (m_segs (MM r)) p)) (m_all (MM r)))).
    { unfold exchange. rewrite (rd_ok alls r []) by lia. cbn [bind]. rewrite alls_nth by auto. apply mapM_ok. intros p Hp. destruct (con_range _ _ _ HC r p) as [Rp _]; [lia|rewrite alls_nth; auto|]. rewrite NPL in Rp.
      assert (Hp' : (Z.to_nat p < np)%nat) by lia. unfold rdz. destruct (Z.ltb_spec p 0); [lia|]. rewrite (rd_ok alls (Z.to_nat p) []) by lia. cbn [bind]. rewrite (rd_ok sent (Z.to_nat p) []) by lia. cbn [bind]. rewrite alls_nth by auto.
      assert (Ir : In (Z.of_nat r) (m_all (MM (Z.to_nat p)))). { rewrite <- alls_nth by auto. apply (con_sym _ _ _ HC); try lia. rewrite alls_nth, Z2Nat.id by (auto; lia). auto. }
      destruct (posn_ok _ _ (SALL _ Hp') Ir) as (i & -> & Hi & Ei). cbn [bind]. destruct (HS _ Hp') as [L1 H1]. rewrite (rd_ok _ i []) by lia. f_equal. rewrite H1, Ei by auto. rewrite shared_flags by auto. rewrite Z2Nat.id by lia. reflexivity. }
    rewrite EX. cbn [bind]. rewrite (rd_ok sent r []) by lia. cbn [bind].
    assert (SZ : sizes_ok (nth r sent []) (map (fun p => map (GF p) (seg_edges (m_segs (MM r)) p)) (m_all (MM r))) = true).
    { destruct (HS r Hr) as [L1 H1].
      assert (Q : forall (a : list (list Z)) (b : list (list Z)), length a = length b -> (forall i, (i < length a)%nat -> length (nth i a []) = length (nth i b [])) -> sizes_ok a b = true).
      { clear. induction a as [|x a IH]; intros b L H; destruct b as [|y b]; try discriminate; auto. cbn [sizes_ok]. pose proof (H 0%nat ltac:(cbn; lia)) as H0. cbn [nth] in H0. rewrite H0, Nat.eqb_refl. cbn [andb]. apply IH; [cbn in L; lia|]. intros i Hi. apply (H (S i)). cbn; lia. }
      apply Q; [rewrite map_length; auto|]. intros i Hi. rewrite H1 by lia. rewrite (nth_map_in _ _ _ _ 0%Z) by lia. rewrite !map_length. reflexivity. }
    rewrite SZ. cbn [negb]. rewrite (rd_ok W r dM) by auto. cbn [bind]. rewrite (rd_ok _ r (dd dM)) by (rewrite map_length; auto). cbn [bind]. rewrite (nth_map_in dd W r (dd dM) dM Hr). unfold dd at 1.
    set (M := MM r) in *. destruct (wm_edges _ _ HW M (nth_In _ _ Hr)) as [NE RE].
    destruct (segs_ok (map (solid (m_gvs M)) (m_edges M)) (row_map (rems (m_gvs M) (m_edges M)) 0) (dofed_nrs (m_gvs M) (m_edges M)) (length (m_edges M))) with (G := GF) (all := m_all M) (segs0 := m_segs M) (rest := m_segs M) (done := @nil (list Z * list nat)) (cnt := repeat O (length (m_all M))) (t := repeat (@nil Z) (length (dofed_nrs (m_gvs M) (m_edges M)))) as (cnt & t & E & Lt & F).
    - apply map_length.
    - rewrite row_map_len. unfold rems. apply map_length.
    - intros e He DE. rewrite (nth_map_in _ _ _ _ (O, O)) in DE by auto. apply dof_of_edge; auto.
    - intros e He. apply dofed_nrs_in in He. destruct He as [A B]. rewrite (nth_map_in _ _ _ _ (O, O)) by auto. exact B.
    - apply NoDup_filter, seq_NoDup.
    - apply SALL; auto.
    - intros s Hs. destruct (wm_segs _ _ HW M s (nth_In _ _ Hr) Hs) as [A B]. split; auto. split; auto. split.
      + clear -NE Hs. induction (m_segs M) as [|s' segs IH]; [destruct Hs|]. cbn [map concat] in NE. destruct Hs as [->|Hs].
        * clear -NE. induction (snd s) as [|x l IHl]; [constructor|]. cbn [app] in NE. inversion NE as [|? ? A B]; subst. constructor; auto. intros Q. apply A, in_app_iff. auto.
        * apply IH; auto. clear -NE. induction (snd s') as [|x l IHl]; auto. inversion NE; auto.
      + intros e He. apply RE, in_concat. exists (snd s). split; auto. apply in_map; auto.
    - reflexivity.
    - apply repeat_length.
    - apply repeat_length.
    - intros i Hi. rewrite nth_repeat. reflexivity.
    - match goal with |- bind ?X _ = _ => replace X with (Ret (cnt, t)) by (symmetry; exact E) end. cbn [bind]. f_equal. unfold newdps, keptnr. rewrite dpss_nth, et_len by auto. fold M.
      change (filter (keepE r) (seq 0 (length (m_edges M)))) with (dofed_nrs (m_gvs M) (m_edges M)). apply (nth_ext_len _ _ []); [rewrite map_length; auto|].
      intros d Hd. rewrite F by lia. rewrite nth_repeat. cbn [app]. rewrite contr_dps by auto. rewrite Lt in Hd. rewrite (nth_map_in _ _ _ _ O) by auto. set (e := nth d (dofed_nrs (m_gvs M) (m_edges M)) O) in *.
      assert (He : (e < length (m_edges M))%nat) by (apply (dofed_nrs_in (m_gvs M)), nth_In; auto).
      unfold newrow. rewrite dpss_nth by auto. fold M. unfold edge_table. rewrite map_nth_seq by auto. apply filter_ext. intros q. unfold GF. destruct (stays _ _ _ _ _); reflexivity.
  Qed.
End UDofs.
