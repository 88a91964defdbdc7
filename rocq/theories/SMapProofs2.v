(** Reading the received messages loop by loop *)
From Verif Require Import Base ArraysModel ArraysProofs ArraysProps LoopModel SMapModel SMapProofs.
Import ListNotations.

Section Recv.
  Context {X O : Type}.
  Variable all : list Z.
  Hypothesis Sall : StronglySorted Z.lt all.
  Variable dps : list (list Z).
  Hypothesis Hdps : forall ps, In ps dps -> NoDup ps /\ incl ps all.
  Variable M : Z -> nat -> list X.
  Variable dX : X.
  Variable adv : X -> nat.
  Hypothesis HM : forall p k, (k < length dps)%nat -> In p (nth k dps []) -> M p k <> [] /\ adv (hd dX (M p k)) = length (M p k).
  Variable g : O -> nat -> Z -> nat -> X -> O.
  Let recv : list (list X) := map (fun p => concat (map (M p) (shared dps p))) all.
  Definition pre (p : Z) (k : nat) : nat := length (concat (map (M p) (filter (fun j => mem p (nth j dps [])) (seq 0 k)))).
  Definition pos (p : Z) : nat := match posn p all with Ret i => i | _ => 0%nat end.
  Definition gproc (st : list nat * O) (p : Z) : res (list nat * O) :=
    let '(cnt, out) := st in
    i <- posn p all ;; c <- rd cnt i ;; row <- rd recv i ;; x <- rd row c ;;
    cnt' <- wr cnt i (c + adv x)%nat ;; Ret (cnt', g out i p c x).

  Lemma row_split p k : (k < length dps)%nat -> In p (nth k dps []) ->
    exists a b, concat (map (M p) (shared dps p)) = a ++ M p k ++ b /\ length a = pre p k.
  Proof.
    intros Hk Hp. unfold shared, pre. replace (length dps) with (k + S (length dps - S k))%nat by lia. rewrite seq_app. cbn [Nat.add seq]. rewrite filter_app, map_app, concat_app.
    cbn [filter]. assert (E : mem p (nth k dps []) = true) by (apply mem_In; auto). rewrite E. cbn [map concat]. eauto.
  Qed.
  Lemma recv_nth i : (i < length all)%nat -> nth i recv [] = concat (map (M (nth i all 0%Z)) (shared dps (nth i all 0%Z))).
  Proof.
    intros H. unfold recv. rewrite (nth_indep _ [] ((fun p => concat (map (M p) (shared dps p))) 0%Z)) by (rewrite map_length; auto).
    rewrite (map_nth (fun p => concat (map (M p) (shared dps p)))). reflexivity.
  Qed.
  Lemma pre_S p k : (k < length dps)%nat -> pre p (S k) = (pre p k + (if mem p (nth k dps []) then length (M p k) else 0))%nat.
  Proof.
    intros Hk. unfold pre. rewrite seq_S, filter_app, map_app, concat_app, app_length. f_equal. cbn [Nat.add filter]. destruct (mem p (nth k dps [])); cbn [map concat length]; auto. rewrite app_nil_r. reflexivity.
  Qed.

  Lemma ginner k : (k < length dps)%nat -> forall ps cnt out, NoDup ps -> incl ps (nth k dps []) -> length cnt = length all ->
    (forall i, (i < length all)%nat -> In (nth i all 0%Z) ps -> nth i cnt 0%nat = pre (nth i all 0%Z) k) ->
    exists cnt', foldM gproc ps (cnt, out) = Ret (cnt', fold_left (fun o p => g o (pos p) p (pre p k) (hd dX (M p k))) ps out) /\ length cnt' = length all /\
      forall i, (i < length all)%nat -> nth i cnt' 0%nat = (nth i cnt 0 + (if mem (nth i all 0%Z) ps then length (M (nth i all 0%Z) k) else 0))%nat.
  Proof.
    intros Hk. induction ps as [|p ps IH]; intros cnt out N I L H.
    - exists cnt. split; [reflexivity|]. split; [exact L|]. intros i Hi. cbn [mem existsb]. lia.
    - inversion N as [|? ? N1 N2]; subst. assert (Ip : In p (nth k dps [])) by (apply I; cbn; auto).
      destruct (Hdps (nth k dps []) (nth_In _ _ Hk)) as [_ Iall].
      destruct (posn_ok p all Sall (Iall p Ip)) as (i & E & Hi & Ei). cbn [foldM]. unfold gproc at 1. rewrite E. cbn [bind].
      assert (Ci : nth i cnt 0%nat = pre p k) by (rewrite H by (auto; rewrite Ei; cbn; auto); rewrite Ei; auto).
      rewrite (rd_ok cnt i 0%nat) by lia. cbn [bind]. rewrite Ci. rewrite (rd_ok recv i []) by (unfold recv; rewrite map_length; auto). cbn [bind]. rewrite recv_nth, Ei by auto.
      destruct (row_split p k Hk Ip) as (a & b & Er & La). destruct (HM p k Hk Ip) as [NE Ad].
      assert (LR : (length (M p k) >= 1)%nat) by (destruct (M p k); [congruence|cbn; lia]).
      rewrite (rd_ok _ (pre p k) dX) by (rewrite Er, !app_length; lia). cbn [bind]. rewrite Er, app_nth2, <- La, Nat.sub_diag by lia.
      assert (X0 : nth 0 (M p k ++ b) dX = hd dX (M p k)) by (destruct (M p k); [congruence|reflexivity]). rewrite X0, Ad, La. rewrite wr_ok by lia. cbn [bind].
      destruct (IH (upd cnt i (pre p k + length (M p k))%nat) (g out i p (pre p k) (hd dX (M p k)))) as (cnt' & E' & L' & F); auto.
      + intros q Hq. apply I. cbn; auto.
      + rewrite upd_length; auto.
      + intros j Hj Jp. destruct (Nat.eq_dec j i) as [->|]; [rewrite Ei in Jp; contradiction|]. rewrite nth_upd_neq by auto. apply H; cbn; auto.
      + exists cnt'. split. { rewrite E'. cbn [fold_left]. do 3 f_equal. unfold pos. rewrite E. reflexivity. }
        split; auto. intros j Hj. rewrite F by auto. unfold mem. cbn [existsb]. fold (mem (nth j all 0%Z) ps). destruct (Nat.eq_dec j i) as [->|NE2].
        * rewrite nth_upd_eq by lia. rewrite Ei, Z.eqb_refl, Ci. cbn [orb]. assert (Y : mem p ps = false) by (apply mem_not; auto). rewrite Y. lia.
        * rewrite nth_upd_neq by auto. destruct (Z.eqb_spec (nth j all 0%Z) p) as [Y|Y]; [|reflexivity]. exfalso. apply NE2.
          pose proof (lt_NoDup _ Sall) as ND. rewrite NoDup_nth with (d := 0%Z) in ND. apply ND; auto. congruence.
  Qed.

  (** the outer loop over the loops *)
  Context {A Q : Type}.
  Variable aux : list A.
  Hypothesis Haux : length aux = length dps.
  Variable init : A -> O.
  Variable fin : Q -> A -> O -> Q.
  Variable dA : A.
  Definition gloop (st : list nat * Q) (x : list Z * A) : res (list nat * Q) :=
    let '(cnt, out) := st in
    ' (cnt, o) <- foldM gproc (fst x) (cnt, init (snd x)) ;; Ret (cnt, fin out (snd x) o).
  Definition loop_out (k : nat) : O := fold_left (fun o p => g o (pos p) p (pre p k) (hd dX (M p k))) (nth k dps []) (init (nth k aux dA)).
  Lemma gouter (q : Q) : exists cnt, foldM gloop (combine dps aux) (repeat 0%nat (length all), q) = Ret (cnt, fold_left (fun q k => fin q (nth k aux dA) (loop_out k)) (seq 0 (length dps)) q).
  Proof.
    assert (G : forall m k cnt q, (k + m = length dps)%nat -> length cnt = length all -> (forall i, (i < length all)%nat -> nth i cnt 0%nat = pre (nth i all 0%Z) k) ->
      exists cnt', foldM gloop (skipn k (combine dps aux)) (cnt, q) = Ret (cnt', fold_left (fun q k => fin q (nth k aux dA) (loop_out k)) (seq k m) q)).
    { induction m as [|m IH]; intros k cnt q0 Hm L H.
      - rewrite skipn_all2 by (rewrite combine_length; lia). eexists. reflexivity.
      - assert (Hk : (k < length dps)%nat) by lia.
        assert (E : skipn k (combine dps aux) = (nth k dps [], nth k aux dA) :: skipn (S k) (combine dps aux)).
        { rewrite <- (combine_nth dps aux k [] dA) by auto. assert (LC : (k < length (combine dps aux))%nat) by (rewrite combine_length; lia). revert LC. generalize (combine dps aux). clear. intros l. revert k.
          induction l as [|a l IH]; intros k H; [cbn in H; lia|]. destruct k; [reflexivity|]. cbn [skipn nth]. rewrite IH by (cbn in H; lia). reflexivity. }
        rewrite E. cbn [foldM]. unfold gloop at 1. cbn [fst snd]. destruct (Hdps (nth k dps []) (nth_In _ _ Hk)) as [Nk Ik].
        destruct (ginner k Hk (nth k dps []) cnt (init (nth k aux dA)) Nk ltac:(intros ? ?; auto) L ltac:(intros; apply H; auto)) as (cnt1 & E1 & L1 & F1). rewrite E1. cbn [bind]. cbn [seq fold_left].
        apply IH; [lia|auto|]. intros i Hi. rewrite F1, H, pre_S by auto. reflexivity. }
    apply (G (length dps) 0%nat); [lia|apply repeat_length|]. intros i Hi. rewrite nth_repeat. reflexivity.
  Qed.
End Recv.
