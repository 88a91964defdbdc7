(** Lemmas for C79: one matching iteration, one joining iteration. *)
From Coq Require Import QArith.
From Verif Require Import Base SparseModel SparseProofs CtrProofs AuxSpec CDataModel CDataSpec CDataProofs SPWModel SPWSpec SPWProofs.
Local Open Scope nat_scope.

Lemma target_upd m i c v : i < length m -> target (upd m i (Z.of_nat c)) v = if v =? i then Some c else target m v.
Proof.
  intros H. unfold target. destruct (Nat.eqb_spec v i) as [->|N].
  - rewrite nth_error_upd_eq by auto. destruct (Z.ltb_spec (Z.of_nat c) 0); [lia|]. now rewrite Nat2Z.id.
  - now rewrite nth_error_upd_neq by auto.
Qed.
Lemma in_upd {A} (l : list A) i x y : In y (upd l i x) -> y = x \/ In y l.
Proof. revert i; induction l as [|a l IH]; intros [|i]; cbn; intuition. destruct (IH i H0); auto. Qed.
Lemma map_into_upd NC m i c : map_into NC m -> c < NC -> map_into NC (upd m i (Z.of_nat c)).
Proof. intros H Hc z Hz. apply in_upd in Hz as [->|Hz]; [right; lia|auto]. Qed.
Lemma map_into_mono NC NC' m : map_into NC m -> NC <= NC' -> map_into NC' m.
Proof. intros H Hc z Hz. destruct (H z Hz); [left; auto|right; lia]. Qed.
Lemma map_into_none NC n : map_into NC (repeat (-1)%Z n).
Proof. intros z Hz. apply repeat_spec in Hz. now left. Qed.
Lemma target_none n v : target (repeat (-1)%Z n) v = None.
Proof. unfold target. destruct (nth_error _ v) eqn:E; auto. apply nth_error_In, repeat_spec in E. subst. reflexivity. Qed.
Lemma target_lt NC m v c : map_into NC m -> target m v = Some c -> v < length m /\ c < NC.
Proof.
  unfold target. intros H. destruct (nth_error m v) as [z|] eqn:E; [|discriminate]. destruct (Z.ltb_spec z 0); [discriminate|].
  intros [= <-]. split; [apply nth_error_Some; congruence|]. apply nth_error_In in E. destruct (H z E); lia.
Qed.
Lemma nth_upd_b (l : list bool) i b v : i < length l -> nth v (upd l i b) false = if v =? i then b else nth v l false.
Proof. intros H. destruct (Nat.eqb_spec v i) as [->|]; [now rewrite nth_upd_eq|now rewrite nth_upd_neq by auto]. Qed.

Section Pairing.
  Variable n : nat.
  Variable N : nat -> nat -> Prop.
  Variable h0 : list bool.

  Record pinv (s : mst) : Prop := mkPinv {
    pi_vm : length (vm s) = n; pi_hd : length (hd s) = n; pi_into : map_into (cnt s) (vm s);
    pi_handled : forall v, v < n -> nth v (hd s) false = true <-> nth v h0 false = true \/ exists c, target (vm s) v = Some c;
    pi_out : forall v, nth v h0 false = true -> target (vm s) v = None;
    pi_pairs : forall c, c < cnt s -> exists v ow, v < n /\ (forall u, target (vm s) u = Some c <-> u = v \/ ow = Some u) /\ (forall w, ow = Some w -> N v w) }.
  Definition grows (s s' : mst) : Prop := forall v, nth v (hd s) false = true -> nth v (hd s') false = true.
  Lemma grows_refl s : grows s s. Proof. intros v; auto. Qed.
  Lemma grows_trans a b c : grows a b -> grows b c -> grows a c. Proof. intros H1 H2 v Hv; auto. Qed.

  Lemma pinv_start : length h0 = n -> pinv (mkMst (repeat (-1)%Z n) h0 0).
  Proof.
    intros HL. constructor; cbn; auto using repeat_length.
    - apply map_into_none.
    - intros v Hv. rewrite target_none. split; [auto|]. intros [H|(c & H)]; [auto|discriminate].
    - intros; apply target_none.
    - intros; lia.
  Qed.

  Variable getNeib : list bool -> nat -> res (option nat).
  Hypothesis GN : forall h v, length h = n -> v < n -> exists r, getNeib h v = Ret r /\
    forall w, r = Some w -> w < n /\ w <> v /\ nth w h false = false /\ N v w.

  Lemma createPair_ok s v : pinv s -> v < n -> nth v (hd s) false = false ->
    exists s', createPair getNeib s v = Ret s' /\ pinv s' /\ nth v (hd s') false = true /\ grows s s'.
  Proof.
    intros HI Hv Hh. destruct (GN (hd s) v (pi_hd s HI) Hv) as (r & Er & R). unfold createPair. rewrite Er. cbn [bind].
    assert (HV0 : forall u, u < n -> nth u (hd s) false = false -> nth u h0 false = false /\ target (vm s) u = None).
    { intros u Hu E. pose proof (pi_handled s HI u Hu) as PH. rewrite E in PH. split.
      - destruct (nth u h0 false); auto. exfalso. destruct PH as [_ PH]. discriminate (PH (or_introl eq_refl)).
      - destruct (target (vm s) u) eqn:Et; auto. exfalso. destruct PH as [_ PH]. discriminate PH. right; eauto. }
    destruct (HV0 v Hv Hh) as [V1 V2]. pose proof (pi_vm s HI) as LV. pose proof (pi_hd s HI) as LH.
    destruct r as [w|].
    - destruct (R w eq_refl) as (Hw & Nw & Ew & NN). destruct (HV0 w Hw Ew) as [W1 W2].
      rewrite !wr_ok by lia. cbn [bind]. rewrite !wr_ok by (rewrite upd_length; lia). cbn [bind].
      eexists. split; [reflexivity|]. cbn [hd vm cnt].
      assert (TG : forall u, target (upd (upd (vm s) w (Z.of_nat (cnt s))) v (Z.of_nat (cnt s))) u =
                   if u =? v then Some (cnt s) else if u =? w then Some (cnt s) else target (vm s) u).
      { intros u. rewrite target_upd by (rewrite upd_length; lia). rewrite target_upd by lia. reflexivity. }
      assert (HG : forall u, nth u (upd (upd (hd s) w true) v true) false = if u =? v then true else if u =? w then true else nth u (hd s) false).
      { intros u. rewrite nth_upd_b by (rewrite upd_length; lia). rewrite nth_upd_b by lia. reflexivity. }
      split; [constructor; cbn [hd vm cnt]|].
      + now rewrite !upd_length.
      + now rewrite !upd_length.
      + apply map_into_upd; [apply map_into_upd|]; try lia. eapply map_into_mono; [apply (pi_into s HI)|lia].
      + intros u Hu. rewrite HG, TG. destruct (Nat.eqb_spec u v) as [->|]; [split; auto; right; eauto|].
        destruct (Nat.eqb_spec u w) as [->|]; [split; auto; right; eauto|]. apply (pi_handled s HI u Hu).
      + intros u Hu. rewrite TG. destruct (Nat.eqb_spec u v) as [->|]; [congruence|]. destruct (Nat.eqb_spec u w) as [->|]; [congruence|]. now apply (pi_out s HI).
      + intros c Hc. destruct (Nat.eq_dec c (cnt s)) as [->|].
        * exists v, (Some w). split; auto. split.
          -- intros u. rewrite TG. destruct (Nat.eqb_spec u v) as [->|]; [split; auto|]. destruct (Nat.eqb_spec u w) as [->|]; [split; auto|].
             split; [intros E; apply (target_lt _ _ _ _ (pi_into s HI)) in E; lia|]. intros [E|E]; [congruence|]. injection E as ->. congruence.
          -- intros w' [= <-]. auto.
        * destruct (pi_pairs s HI c ltac:(lia)) as (v' & ow & Hv' & P1 & P2). exists v', ow. split; auto. split; auto.
          intros u. rewrite TG. rewrite <- P1. destruct (Nat.eqb_spec u v) as [->|]; [rewrite V2; split; congruence|].
          destruct (Nat.eqb_spec u w) as [->|]; [rewrite W2; split; congruence|]. reflexivity.
      + split; [rewrite HG, Nat.eqb_refl; auto|]. intros u Hu. cbn [hd]. rewrite HG, Hu. now destruct (u =? v), (u =? w).
    - cbn [bind]. rewrite !wr_ok by lia. cbn [bind]. eexists. split; [reflexivity|]. cbn [hd vm cnt].
      split; [constructor; cbn [hd vm cnt]|].
      + now rewrite !upd_length.
      + now rewrite !upd_length.
      + apply map_into_upd; try lia. eapply map_into_mono; [apply (pi_into s HI)|lia].
      + intros u Hu. rewrite nth_upd_b, target_upd by lia. destruct (Nat.eqb_spec u v) as [->|]; [split; auto; right; eauto|]. apply (pi_handled s HI u Hu).
      + intros u Hu. rewrite target_upd by lia. destruct (Nat.eqb_spec u v) as [->|]; [congruence|]. now apply (pi_out s HI).
      + intros c Hc. destruct (Nat.eq_dec c (cnt s)) as [->|].
        * exists v, None. split; auto. split; [|discriminate].
          intros u. rewrite target_upd by lia. destruct (Nat.eqb_spec u v) as [->|]; [split; auto|].
          split; [intros E; apply (target_lt _ _ _ _ (pi_into s HI)) in E; lia|]. intros [E|E]; [congruence|discriminate].
        * destruct (pi_pairs s HI c ltac:(lia)) as (v' & ow & Hv' & P1 & P2). exists v', ow. split; auto. split; auto.
          intros u. rewrite target_upd by lia. rewrite <- P1. destruct (Nat.eqb_spec u v) as [->|]; [rewrite V2; split; congruence|]. reflexivity.
      + split; [rewrite nth_upd_b, Nat.eqb_refl by lia; auto|]. intros u Hu. cbn [hd]. rewrite nth_upd_b, Hu by lia. now destruct (u =? v).
  Qed.
End Pairing.

(** the iteration over the vertices, for any action that keeps an invariant and marks its vertex *)
Section Iterate.
  Variable n : nat.
  Variable inv : mst -> Prop.
  Hypothesis inv_len : forall s, inv s -> length (hd s) = n.
  Variable lam : mst -> nat -> res mst.
  Hypothesis lam_ok : forall s v, inv s -> v < n -> nth v (hd s) false = false ->
    exists s', lam s v = Ret s' /\ inv s' /\ nth v (hd s') false = true /\ grows s s'.
  Variable econ : smat nat.
  Hypothesis econ_len : length econ = n.
  Hypothesis econ_in : forall v w, v < n -> In w (map fst (nth v econ [])) -> w < n.
  Variable sortd : (nat -> nat) -> list nat -> list nat.
  Hypothesis sortd_perm : sortd_ok sortd.

  Lemma guarded_ok s w : inv s -> w < n -> exists s', (b <- rd (hd s) w ;; if b : bool then Ret s else lam s w) = Ret s' /\ inv s' /\ nth w (hd s') false = true /\ grows s s'.
  Proof.
    intros HI Hw. rewrite (rd_ok _ _ false) by (rewrite inv_len; auto). cbn [bind]. destruct (nth w (hd s) false) eqn:E.
    - exists s. auto using grows_refl.
    - apply lam_ok; auto.
  Qed.
  Lemma guarded_fold l : (forall w, In w l -> w < n) -> forall s, inv s ->
    exists s', foldM (fun s w => b <- rd (hd s) w ;; if b : bool then Ret s else lam s w) l s = Ret s' /\ inv s' /\ grows s s'.
  Proof.
    induction l as [|w l IH]; intros HL s HI; cbn [foldM].
    - exists s. auto using grows_refl.
    - destruct (guarded_ok s w HI ltac:(apply HL; now left)) as (s1 & E1 & I1 & _ & G1). rewrite E1. cbn [bind].
      destruct (IH ltac:(intros; apply HL; now right) s1 I1) as (s2 & E2 & I2 & G2). exists s2. eauto using grows_trans.
  Qed.
  Lemma low_deg_ok h row : length h = n -> (forall w, In w (map fst row) -> w < n) ->
    exists l, low_deg econ h row = Ret l /\ forall w, In w l -> In w (map fst row).
  Proof.
    intros HL HR. unfold low_deg. match goal with |- context [foldM ?F0 _ _] => set (F := F0) end.
    assert (G : forall rw acc, (forall p, In p rw -> fst p < n) -> exists l, foldM F rw acc = Ret l /\ forall w, In w l -> In w acc \/ In w (map fst rw)).
    { induction rw as [|p rw IH]; intros acc HR'; cbn [foldM]; [eauto|].
      unfold F at 1. cbn [bind]. rewrite (rd_ok _ _ false) by (rewrite HL; apply HR'; now left). cbn [bind].
      destruct (nth (fst p) h false).
      - destruct (IH acc ltac:(intros; apply HR'; now right)) as (l & E & I). exists l. split; auto. intros w Hw. cbn. destruct (I w Hw); auto.
      - rewrite (rd_ok econ _ []) by (rewrite econ_len; apply HR'; now left). cbn [bind].
        match goal with |- context [foldM F rw ?A0] => destruct (IH A0 ltac:(intros; apply HR'; now right)) as (l & E & I) end.
        exists l. split; auto. intros w Hw. cbn. destruct (I w Hw) as [H|H]; auto. destruct (_ <? _); auto. apply in_app_iff in H as [H|[<-|[]]]; auto. }
    destruct (G row [] ltac:(intros p Hp; apply HR; now apply in_map)) as (l & E & I). exists l. split; auto. intros w Hw. destruct (I w Hw) as [[]|]; auto.
  Qed.
  Lemma iter_vertex_ok prefer s v : inv s -> v < n ->
    exists s', iter_vertex prefer econ sortd lam s v = Ret s' /\ inv s' /\ nth v (hd s') false = true /\ grows s s'.
  Proof.
    intros HI Hv. unfold iter_vertex. rewrite (rd_ok _ _ false) by (rewrite inv_len; auto). cbn [bind].
    destruct (nth v (hd s) false) eqn:E; [exists s; auto using grows_refl|].
    assert (X : exists s1, (if prefer then row <- rd econ v ;; ld <- low_deg econ (hd s) row ;;
                   foldM (fun s w => b <- rd (hd s) w ;; if b : bool then Ret s else lam s w) (sortd (fun n => length (nth n econ [])) ld) s else Ret s) = Ret s1 /\ inv s1 /\ grows s s1).
    { destruct prefer; [|exists s; auto using grows_refl]. rewrite (rd_ok econ v []) by lia. cbn [bind].
      destruct (low_deg_ok (hd s) (nth v econ []) (inv_len s HI) (fun w => econ_in v w Hv)) as (ld & El & Il). rewrite El. cbn [bind].
      apply guarded_fold; auto. intros w Hw. apply (econ_in v w Hv), Il. eapply Permutation_in; [apply sortd_perm|]; eauto. }
    destruct X as (s1 & E1 & I1 & G1). rewrite E1. cbn [bind].
    destruct (guarded_ok s1 v I1 Hv) as (s2 & E2 & I2 & H2 & G2). exists s2. eauto using grows_trans.
  Qed.
  Lemma iterate_ok prefer order : (forall v, In v order -> v < n) -> forall s, inv s ->
    exists s', foldM (iter_vertex prefer econ sortd lam) order s = Ret s' /\ inv s' /\ grows s s' /\ forall v, In v order -> nth v (hd s') false = true.
  Proof.
    induction order as [|v order IH]; intros HO s HI; cbn [foldM].
    - exists s. split; auto. split; auto. split; [apply grows_refl|intros v []].
    - destruct (iter_vertex_ok prefer s v HI ltac:(apply HO; now left)) as (s1 & E1 & I1 & H1 & G1). rewrite E1. cbn [bind].
      destruct (IH ltac:(intros; apply HO; now right) s1 I1) as (s2 & E2 & I2 & G2 & A2). exists s2. split; auto. split; auto.
      split; [eauto using grows_trans|]. intros w [<-|Hw]; auto.
  Qed.
End Iterate.

(** a vertex map whose classes consist of one vertex or of two related ones *)
Definition pair_map (n : nat) (N : nat -> nat -> Prop) (out : nat -> Prop) (NC : nat) (m : list Z) : Prop :=
  length m = n /\ map_into NC m /\ (forall v, v < n -> target m v = None <-> out v) /\
  forall c, c < NC -> exists v ow, v < n /\ (forall u, target m u = Some c <-> u = v \/ ow = Some u) /\ (forall w, ow = Some w -> N v w).
(** ... or of one vertex and any number of vertices related to it *)
Definition star_map (n : nat) (N : nat -> nat -> Prop) (out : nat -> Prop) (NC : nat) (m : list Z) : Prop :=
  length m = n /\ map_into NC m /\ (forall v, v < n -> target m v = None <-> out v) /\
  forall c, c < NC -> exists v, v < n /\ target m v = Some c /\ forall u, target m u = Some c -> u = v \/ N v u.
Lemma pair_star n N out NC m : pair_map n N out NC m -> star_map n N out NC m.
Proof.
  intros (A & B & C & D). split; auto. split; auto. split; auto. intros c Hc. destruct (D c Hc) as (v & ow & Hv & D1 & D2).
  exists v. split; auto. split; [apply D1; auto|]. intros u Hu. apply D1 in Hu as [->|Hu]; auto.
Qed.
Lemma star_surj n N out NC m : star_map n N out NC m -> NC <= n.
Proof.
  intros (A & B & C & D). rewrite <- A. rewrite <- (map_length Z.to_nat m), <- (seq_length NC 0).
  apply NoDup_incl_length; [apply seq_NoDup|]. intros c Hc. apply in_seq in Hc. destruct (D c ltac:(lia)) as (v & Hv & T & _).
  unfold target in T. destruct (nth_error m v) as [z|] eqn:E; [|discriminate]. destruct (z <? 0)%Z; [discriminate|]. injection T as <-.
  apply in_map. eapply nth_error_In; eauto.
Qed.

(** who may be matched *)
Definition may_match (P : par_info) (veq : list nat) (v w : nat) : Prop :=
  truly_par P = true -> nth v veq 0 = 0 \/ nth w veq 0 = 0 \/ leq P (nth v veq 0) (nth w veq 0) = true \/ leq P (nth w veq 0) (nth v veq 0) = true.
Lemma allow_match_ok P veq h v w : (truly_par P = true -> v < length veq /\ w < length veq /\ forall s, solid P = Some s -> w < length s) -> w < length h ->
  exists b, allow_match P veq h v w = Ret b /\ (b = true -> nth w h false = false /\ may_match P veq v w).
Proof.
  intros HP Hw. unfold allow_match, may_match. rewrite (rd_ok _ _ false) by auto. cbn [bind]. destruct (nth w h false); [exists false; split; auto; discriminate|].
  destruct (truly_par P); cbn [negb]; [|exists true; split; auto; split; auto; discriminate].
  destruct (HP eq_refl) as (H1 & H2 & H3). destruct (solid P) as [s|].
  - rewrite (rd_ok s _ false) by auto. cbn [bind]. destruct (nth w s false); [|exists false; split; auto; discriminate].
    rewrite !(rd_ok veq _ 0) by auto. cbn [bind]. eexists. split; [reflexivity|]. intros E. split; auto. intros _.
    rewrite !orb_true_iff in E. destruct E as [[[E|E]|E]|E]; auto; apply Nat.eqb_eq in E; auto.
  - rewrite !(rd_ok veq _ 0) by auto. cbn [bind]. destruct (Nat.eqb_spec (nth w veq 0) 0); [exists true; auto|].
    destruct (Nat.eqb_spec (nth v veq 0) 0); [eexists; split; [reflexivity|]; auto|].
    eexists. split; [reflexivity|]. intros E. split; auto. intros _. apply andb_true_iff in E as [_ E]. apply orb_true_iff in E. tauto.
Qed.

Definition mesh_adj (M : lmesh) (v w : nat) : Prop := adjacent (m_edges M) v w.
Lemma mesh_row M v w : mesh_ok M -> v < m_nv M -> In w (map fst (nth v (m_econ M) [])) -> w < m_nv M /\ w <> v /\ mesh_adj M v w.
Proof.
  intros (HE & HL & HR) Hv Hw. apply in_map_iff in Hw as ((w' & e) & Ew & Hi). cbn in Ew. subst w'. apply (proj2 (HR v Hv)) in Hi.
  split; [|split; [|exists e; auto]]; destruct Hi as [J|J]; apply nth_error_In, HE in J; intuition.
Qed.

Lemma pairing_ok c O P r prefer M veq order h0 : oracles_ok O -> config_ok c -> mesh_ok M -> length h0 = m_nv M ->
  (truly_par P = true -> length veq = m_nv M /\ forall s, solid P = Some s -> m_nv M <= length s) ->
  (forall v, In v order <-> v < m_nv M) ->
  exists s, PairingIteration c O P r prefer (m_econ M) veq order (repeat (-1)%Z (m_nv M)) h0 = Ret s /\
    pair_map (m_nv M) (fun v w => w <> v /\ mesh_adj M v w /\ may_match P veq v w) (fun v => nth v h0 false = true) (cnt s) (vm s).
Proof.
  intros (HO1 & HO2 & HO3) HC HM HL HP Ho. set (n := m_nv M) in *. set (NN := fun v w => w <> v /\ mesh_adj M v w /\ may_match P veq v w).
  unfold PairingIteration.
  assert (GN : forall h v, length h = n -> v < n -> exists r0, FindNeighborToMatch c O r (m_econ M) (allow_match P veq h) v = Ret r0 /\
    forall w, r0 = Some w -> w < n /\ w <> v /\ nth w h false = false /\ NN v w).
  { intros h v Hh Hv. unfold FindNeighborToMatch. rewrite (rd_ok (m_econ M) v []) by (destruct HM as (_ & E & _); fold n in E; lia). cbn [bind].
    set (al := fun w => match allow_match P veq h v w with Ret b => b | Err _ => false end).
    assert (HA : forall w, In w (map fst (nth v (m_econ M) [])) -> exists b, allow_match P veq h v w = Ret b /\ (b = true -> nth w h false = false /\ may_match P veq v w)).
    { intros w Hw. destruct (mesh_row M v w HM Hv Hw) as (Hw1 & _). apply allow_match_ok; [|fold n in Hw1; lia].
      intros HT. destruct (HP HT) as (Q1 & Q2). fold n in Hw1. split; [lia|]. split; [lia|]. intros s Hs. specialize (Q2 s Hs). lia. }
    destruct (FindNeib3Step_ok c (o_sorti O) (o_ini O r v) (o_rob O r v) (o_crob O r v) (o_cbig O r v) (allow_match P veq h v) al (map fst (nth v (m_econ M) [])) HO1 HC) as (r0 & E & BC).
    { intros w Hw. destruct (HA w Hw) as (b & Eb & _). unfold al. now rewrite Eb. }
    exists r0. split; auto. intros w ->. apply best_choice_allowed in BC as [Hw Aw]. destruct (HA w Hw) as (b & Eb & B). unfold al in Aw. rewrite Eb in Aw.
    destruct (B Aw) as [B1 B2]. destruct (mesh_row M v w HM Hv Hw) as (Q1 & Q2 & Q3). fold n in Q1. repeat split; auto. }
  destruct (iterate_ok n (pinv n NN h0) (pi_hd n NN h0) _ (createPair_ok n NN h0 _ GN) (m_econ M) ltac:(apply HM) (fun v w Hv Hw => proj1 (mesh_row M v w HM Hv Hw)) (o_sortd O) HO2
    prefer order (fun v Hv => proj1 (Ho v) Hv) _ (pinv_start n NN h0 HL)) as (s & E & I & G & A).
  exists s. split; [exact E|]. split; [apply I|]. split; [apply I|]. split; [|apply I].
  intros v Hv. split.
  - intros T. pose proof (proj1 (pi_handled n NN h0 s I v Hv) (A v ltac:(now apply Ho))) as [H|(cc & H)]; [auto|congruence].
  - intros H. apply (pi_out n NN h0 s I v H).
Qed.
