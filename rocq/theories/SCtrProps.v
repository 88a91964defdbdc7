(** Properties C91-C93: redistribution of the additional data of a Stokes mesh *)
From Verif Require Import Base ArraysModel ArraysProofs ArraysProps LoopModel LoopProps SMapModel SMapProofs SMapProofs3 SMapProofs8 SMapProofs9 SMeshModel SMeshProofs2 SCtrModel SCtrProofs SCtrProofs2 SCtrProofs3 SCtrProofs4.
Import ListNotations.

(** ** C91 what a member packs is what the group master unpacks; duplicates are removed *)
Theorem C91_message : forall D junk, exists u, unpack_message (pack_message D junk) = Ret u /\
  u_gn u = d_gn D /\ u_loops u = d_loops D /\ u_dps u = d_dps D /\ u_gv u = match d_gv D with Some gv => map (fun b : bool => if b then 1 else 0)%Z gv | None => [] end /\ u_des u = map (fun b : bool => if b then 1 else 0)%Z (d_des D).
Proof. intros D junk. eexists. split; [apply message_ok|]. cbn [u_gn u_loops u_dps u_gv u_des]. repeat split. Qed.
Print Assumptions C91_message.
Theorem C91_duplicates : forall t, exists t', RemoveDuplicates t = Ret t' /\ length t' = length t /\
  forall i, (i < length t)%nat -> StronglySorted Z.lt (nth i t' []) /\ forall x, In x (nth i t' []) <-> In x (nth i t []).
Proof. exact RemoveDuplicates_ok. Qed.
Print Assumptions C91_duplicates.
Example C91_nonvacuous : RemoveDuplicates [[]; [5]; [3; -1; 3; 2; -1]; [4; 4; 4]]%Z = Ret [[]; [5]; [-1; 2; 3]; [4]]%Z /\
  pack_message (mkMd [7; 9] [[1; -2]; []] [[]; [1]] (Some [true; false]) [true; false]) [] = [2; 7; 9; 6; 2; 0; 2; 2; 1; -2; 2; 0; 0; 1; 1; 2; 1; 0; 2; 1; 0]%Z /\
  unpack_message [2; 7; 9; 6; 2; 0; 2; 2; 1; -2; 2; 0; 0; 1; 1; 2; 1; 0; 2; 1; 0]%Z = Ret (mkU [7; 9] [[1; -2]; []] [[]; [1]] [1; 0] [1; 0])%Z.
Proof. split; [|split]; vm_compute; reflexivity. Qed.

(** ** C92 the loops of the contracted mesh *)
(** the oriented edge c of a member becomes the oriented edge x *)
Definition becomes (mp : mapd) (c x : Z) : Prop :=
  let e := Z.to_nat (Z.abs c - 1) in
  (Z.abs x - 1 = nth e (p_emap mp) 0 /\ (0 < x <-> if nth e (p_flip mp) false then c < 0 else 0 < c))%Z.
Lemma image_becomes np u mp c x : fits np u mp -> (forall e, In e (p_emap mp) -> 0 <= e)%Z -> code_in mp c -> (x = image mp c <-> becomes mp c x).
Proof.
  intros F HE [N L]. unfold becomes, image. set (e := Z.to_nat (Z.abs c - 1)). assert (HL : (e < length (p_emap mp))%nat) by (unfold e; lia). pose proof (HE _ (nth_In _ 0%Z HL)) as R. set (s := nth e (p_emap mp) 0%Z) in *.
  destruct (Z.ltb_spec 0 c), (nth e (p_flip mp) false); cbn [Bool.eqb]; lia.
Qed.
Theorem C92_loops : forall pmap me us ms, length ms = length us ->
  (forall k, (k < length us)%nat -> fits (length pmap) (nth k us dU) (nth k ms dP) /\ forall e, In e (p_emap (nth k ms dP)) -> (0 <= e)%Z) ->
  exists gnums cl cd, ctr_loops pmap me us ms = Ret (cl, cd) /\ StronglySorted Z.lt gnums /\ (forall g, In g gnums <-> exists u, In u us /\ In g (u_gn u)) /\ length cl = length gnums /\ length cd = length gnums /\
    (forall k, (k < length us)%nat -> let u := nth k us dU in exists lm, loop_map gnums u = Ret lm /\ length lm = length (u_gn u) /\ forall j, (j < length (u_gn u))%nat -> (nth j lm O < length gnums)%nat /\ nth (nth j lm O) gnums 0%Z = nth j (u_gn u) 0%Z) /\
    forall i, (i < length gnums)%nat ->
      let piece k j := (k < length us)%nat /\ (j < length (u_gn (nth k us dU)))%nat /\ nth j (u_gn (nth k us dU)) 0%Z = nth i gnums 0%Z in
      StronglySorted Z.lt (nth i cl []) /\ (forall x, In x (nth i cl []) <-> exists k j c, piece k j /\ In c (nth j (u_loops (nth k us dU)) []) /\ becomes (nth k ms dP) c x) /\
      StronglySorted Z.lt (nth i cd []) /\ (forall q, In q (nth i cd []) <-> q <> me /\ exists k j p, piece k j /\ In p (nth j (u_dps (nth k us dU)) []) /\ q = nth (Z.to_nat p) pmap 0%Z).
Proof.
  intros pmap me us ms LM HF. destruct (ctr_loops_ok pmap me us ms LM ltac:(intros k Hk; apply HF; auto)) as (gnums & cl & cd & E1 & E & L1 & L2 & H). destruct (all_gnums_ok us) as (g0 & E0 & SS & HG). assert (g0 = gnums) by congruence. subst g0.
  exists gnums, cl, cd. split; auto. split; auto. split; auto. split; auto. split; auto. split.
  { intros k Hk u. apply loop_map_ok; auto. intros g Hg. apply HG. exists u. split; auto. apply nth_In; auto. }
  intros i Hi. destruct (H i Hi) as [[A1 A2] [B1 B2]]. cbv zeta. split; auto. split.
  - intros x. rewrite A2. split.
    + intros (k & j & c & P1 & P2 & P3 & P4 & P5). exists k, j, c. split; auto. split; auto. destruct (HF k P1) as [F HE]. eapply image_becomes; eauto. eapply (ft_codes _ _ _ F); eauto. apply nth_In. rewrite (ft_loops _ _ _ F). auto.
    + intros (k & j & c & (P1 & P2 & P3) & P4 & P5). exists k, j, c. repeat (split; auto). destruct (HF k P1) as [F HE]. eapply image_becomes; eauto. eapply (ft_codes _ _ _ F); eauto. apply nth_In. rewrite (ft_loops _ _ _ F). auto.
  - split; auto. intros q. rewrite B2. apply and_iff_compat_l. split; [intros (k & j & p & P1 & P2 & P3 & P4 & P5)|intros (k & j & p & (P1 & P2 & P3) & P4 & P5)]; exists k, j, p; repeat (split; auto).
Qed.
Print Assumptions C92_loops.
(** an oriented edge from a to b becomes one from the image of a to the image of b *)
Theorem C92_direction : forall mp fedges cedges c x, becomes mp c x -> code_in mp c -> length fedges = length (p_emap mp) ->
  (forall j, (j < length fedges)%nat -> let f := nth j fedges (O, O) in let e := nth (Z.to_nat (nth j (p_emap mp) 0%Z)) cedges (O, O) in
     let a := Z.to_nat (nth (fst f) (p_vmap mp) 0%Z) in let b := Z.to_nat (nth (snd f) (p_vmap mp) 0%Z) in if nth j (p_flip mp) false then e = (b, a) else e = (a, b)) ->
  (0 <= Z.abs x - 1)%Z ->
  code_from cedges x = Z.to_nat (nth (code_from fedges c) (p_vmap mp) 0%Z) /\ code_to cedges x = Z.to_nat (nth (code_to fedges c) (p_vmap mp) 0%Z).
Proof.
  intros mp fedges cedges c x [A B] [N L] LF H NX. set (e := Z.to_nat (Z.abs c - 1)) in *. specialize (H e ltac:(unfold e; lia)). cbv zeta in H. unfold code_from, code_to. cbv zeta. rewrite A. fold e.
  destruct (nth e (p_flip mp) false); rewrite H; cbn [fst snd]; destruct (Z.ltb_spec 0 c), (Z.ltb_spec 0 x); try lia; auto.
Qed.
Print Assumptions C92_direction.
(** the tables of shared loops of the contracted mesh fit to each other, and the loops that were one stay one *)
Theorem C92_fits : forall alls dpss gid groups pmap U MS, consistent alls dpss gid -> length pmap = length alls ->
  (forall q r, (q < length groups)%nat -> (In r (nth q groups []) <-> (r < length alls)%nat /\ nth r pmap 0%Z = Z.of_nat q)) ->
  (forall r, (r < length alls)%nat -> (0 <= nth r pmap 0 < Z.of_nat (length groups))%Z) ->
  (forall r, (r < length alls)%nat -> u_gn (U r) = map (fun j => Z.of_nat (gid r j)) (seq 0 (length (nth r dpss [])))) ->
  (forall r, (r < length alls)%nat -> u_dps (U r) = nth r dpss []) ->
  (forall q, (q < length groups)%nat -> length (MS q) = length (nth q groups [])) ->
  (forall q k, (q < length groups)%nat -> (k < length (nth q groups []))%nat -> fits (length alls) (U (nth k (nth q groups []) O)) (nth k (MS q) dP)) ->
  exists alls' tabs cgid, consistent alls' tabs cgid /\ length tabs = length groups /\ forall q, (q < length groups)%nat ->
    (exists cl, ctr_loops pmap (Z.of_nat q) (map U (nth q groups [])) (MS q) = Ret (cl, nth q tabs [])) /\
    (forall g, (exists i, (i < length (nth q tabs []))%nat /\ cgid q i = g) <-> exists r j, In r (nth q groups []) /\ (j < length (nth r dpss []))%nat /\ gid r j = g).
Proof.
  intros alls dpss gid groups pmap U MS HC Lp Hgr Hpm Hgn Hdps HM HF. exists (map (call groups pmap U MS) (seq 0 (length groups))), (map (ctabs groups pmap U MS) (seq 0 (length groups))), (cgid groups U).
  split; [eapply ctr_consistent; eauto|]. split; [rewrite map_length, seq_length; auto|]. intros q Hq. rewrite map_nth_seq by auto. split.
  - destruct (ctr_q alls dpss gid HC groups pmap Lp Hgr Hpm U MS Hgn Hdps HM HF q Hq) as (gn & cl & cd & E1 & E2 & _). exists cl. unfold ctabs. unfold us in *. rewrite E2. reflexivity.
  - intros g. destruct (q_facts alls dpss gid HC groups pmap Lp Hgr Hpm U MS Hgn Hdps HM HF q Hq) as (L & SS & HG & HH & _). split.
    + intros (i & Hi & <-). destruct (HH i ltac:(lia)) as (r & I & j & Hj & E). exists r, j. auto.
    + intros (r & j & I & Hj & <-). destruct (cholds_nr alls dpss gid HC groups pmap Lp Hgr Hpm U MS Hgn Hdps HM HF q (gid r j) Hq) as (i & Hi & E); [exists r; split; auto; exists j; auto|]. exists i. split; [lia|auto].
Qed.
Print Assumptions C92_fits.

(** ** C93 ghost vertices, unknowns and flip marks *)
(** a vertex of the contracted mesh is a ghost iff all vertices that become it are ghosts *)
Theorem C93_ghosts : forall n us ms, length ms = length us -> (forall k, (k < length us)%nat -> (length (u_gv (nth k us dU)) <= length (p_vmap (nth k ms dP)))%nat /\ forall v, In v (p_vmap (nth k ms dP)) -> (0 <= v < Z.of_nat n)%Z) ->
  exists cgv, ctr_ghosts n us ms = Ret cgv /\ length cgv = n /\ forall v, (v < n)%nat -> (nth v cgv false = true <-> forall k i, (k < length us)%nat -> (i < length (u_gv (nth k us dU)))%nat -> nth i (p_vmap (nth k ms dP)) 0%Z = Z.of_nat v -> nth i (u_gv (nth k us dU)) 1%Z <> 0%Z).
Proof. exact ctr_ghosts_ok. Qed.
Print Assumptions C93_ghosts.
(** the unknown of an edge of a member goes to the unknown of the edge it becomes; it always has one *)
Theorem C93_unknowns : forall n us ms cgv k fgv fedges cedges fdes fd2e fe2d cdes cd2e ce2d, length ms = length us ->
  (forall k, (k < length us)%nat -> (length (u_gv (nth k us dU)) <= length (p_vmap (nth k ms dP)))%nat /\ forall v, In v (p_vmap (nth k ms dP)) -> (0 <= v < Z.of_nat n)%Z) ->
  ctr_ghosts n us ms = Ret cgv -> (k < length us)%nat -> let u := nth k us dU in let mp := nth k ms dP in
  u_gv u = map (fun b : bool => if b then 1 else 0)%Z fgv -> u_des u = map (fun b : bool => if b then 1 else 0)%Z fdes -> length fgv = length (p_vmap mp) ->
  ends_ok (length fgv) fedges -> ends_ok n cedges -> length fedges = length (p_emap mp) -> (forall e, In e (p_emap mp) -> (0 <= e < Z.of_nat (length cedges))%Z) ->
  (forall j, (j < length fedges)%nat -> let f := nth j fedges (O, O) in let e := nth (Z.to_nat (nth j (p_emap mp) 0%Z)) cedges (O, O) in
     let a := Z.to_nat (nth (fst f) (p_vmap mp) 0%Z) in let b := Z.to_nat (nth (snd f) (p_vmap mp) 0%Z) in e = (b, a) \/ e = (a, b)) ->
  SetUpDOFedEdges false (Some fgv) fedges = Ret (fdes, fd2e, fe2d) -> SetUpDOFedEdges false (Some cgv) cedges = Ret (cdes, cd2e, ce2d) ->
  exists l, de_map ce2d (u, mp) = Ret l /\ length l = length fd2e /\ forall d, (d < length fd2e)%nat -> exists d', nth d l 0%Z = Z.of_nat d' /\ (d' < length cd2e)%nat /\ Z.of_nat (nth d' cd2e O) = nth (nth d fd2e O) (p_emap mp) 0%Z.
Proof.
  intros n us ms cgv k fgv fedges cedges fdes fd2e fe2d cdes cd2e ce2d LM HV EG Hk u mp GV DE LV HE HCE LE REM ENDS SF SC.
  destruct (ctr_ghosts_ok n us ms LM HV) as (cgv' & EG' & LC & HG). assert (cgv' = cgv) by congruence. subst cgv'.
  rewrite SetUp_ok in SF by auto. injection SF as <- <- <-. rewrite SetUp_ok in SC by (rewrite LC; auto). injection SC as <- <- <-.
  assert (SOL : forall j, (j < length fedges)%nat -> solid fgv (nth j fedges (O, O)) = true -> solid cgv (nth (Z.to_nat (nth j (p_emap mp) 0%Z)) cedges (O, O)) = true).
  { intros j Hj S0. assert (G : forall i, (i < length fgv)%nat -> nth i fgv false = false -> nth (Z.to_nat (nth i (p_vmap mp) 0%Z)) cgv false = false).
    { intros i Hi Ei. destruct (HV k Hk) as [_ HR]. fold mp in HR. assert (Li : (i < length (p_vmap mp))%nat) by lia. pose proof (HR _ (nth_In _ 0%Z Li)) as R.
      apply not_true_is_false. intros X. assert (Lw : (Z.to_nat (nth i (p_vmap mp) 0%Z) < n)%nat) by lia. pose proof (proj1 (HG _ Lw) X) as Y. apply (Y k i); auto; fold u mp.
      - rewrite GV, map_length. auto.
      - lia.
      - rewrite GV. rewrite (nth_map_in _ _ _ _ false) by auto. rewrite Ei. reflexivity. }
    assert (In0 : In (nth j fedges (O, O)) fedges) by (apply nth_In; auto). destruct (HE _ In0) as [EA EB]. specialize (ENDS j Hj). cbv zeta in ENDS.
    unfold solid in *. rewrite negb_true_iff, andb_false_iff in *. destruct ENDS as [-> | ->]; cbn [fst snd]; destruct S0 as [S0|S0]; apply G in S0; auto. }
  assert (LE2 : length (row_map (rems cgv cedges) 0) = length cedges) by (rewrite row_map_len; unfold rems; apply map_length).
  rewrite (de_map_ok u mp _ (map (solid fgv) fedges)); auto; [|rewrite map_length; auto|rewrite LE2; auto].
  assert (EF : filter (fun i => nth i (map (solid fgv) fedges) false) (seq 0 (length (map (solid fgv) fedges))) = dofed_nrs fgv fedges).
  { unfold dofed_nrs. rewrite map_length. apply filter_ext_in. intros i Hi. apply in_seq in Hi. apply nth_map_in. lia. }
  rewrite EF. eexists. split; [reflexivity|]. split; [apply map_length|]. intros d Hd. rewrite (nth_map_in _ _ _ _ O) by auto.
  assert (I : In (nth d (dofed_nrs fgv fedges) O) (dofed_nrs fgv fedges)) by (apply nth_In; auto). apply dofed_nrs_in in I. destruct I as [I1 I2]. set (j := nth d (dofed_nrs fgv fedges) O) in *.
  assert (Lj : (j < length (p_emap mp))%nat) by lia. pose proof (REM _ (nth_In _ 0%Z Lj)) as R. destruct (dof_of_edge cgv cedges (Z.to_nat (nth j (p_emap mp) 0%Z)) ltac:(lia) (SOL j I1 I2)) as (d' & A & B & C). exists d'. split; auto. split; auto. rewrite C. lia.
Qed.
Print Assumptions C93_unknowns.
(** an edge of the contracted mesh is marked iff some member turns one of its edges around for it *)
Theorem C93_flips : forall n ms, (forall m, In m ms -> length (p_flip m) = length (p_emap m) /\ forall e, In e (p_emap m) -> (0 <= e < Z.of_nat n)%Z) ->
  exists b, ctr_flips n ms = Ret b /\ length b = n /\ forall e, (nth e b false = true <-> exists m j, In m ms /\ (j < length (p_emap m))%nat /\ nth j (p_emap m) 0%Z = Z.of_nat e /\ nth j (p_flip m) false = true).
Proof.
  intros n ms H. destruct (flips_ok n ms (repeat false n) H (repeat_length _ _)) as (b & E & L & HB). exists b. split; [exact E|]. split; auto. intros e. rewrite HB. split; [|auto]. intros [X|X]; auto. rewrite nth_repeat in X. discriminate.
Qed.
Print Assumptions C93_flips.

(** three processes, the first two are merged; the loop 5 is on all of them, the loop 3 on the first two *)
Definition exA : list (list Z) := [[1; 2]; [0; 2]; [0; 1]]%Z.
Definition exD : list (list (list Z)) := [[[1; 2]; [1]]; [[0; 2]; [0]]; [[0; 1]]]%Z.
Definition exG (r j : nat) : nat := match j with O => 5%nat | S _ => 3%nat end.
Definition exU (r : nat) : umsg := nth r [mkU [5; 3] [[1]; [-1]] [[1; 2]; [1]] [0; 1] [1]; mkU [5; 3] [[-1]; [1]] [[0; 2]; [0]] [1; 1] [0]; mkU [5] [[1]] [[0; 1]] [0; 0] [1]]%Z dU.
Definition exM (q : nat) : list mapd := nth q [[mkMp [1; 0] [0] [true]; mkMp [1; 2] [1] [false]]; [mkMp [0; 1] [0] [false]]]%Z [].
Ltac three r := destruct r as [|[|[|r]]]; [| | |cbn in *; lia].
Ltac mems3 H := cbn in H; repeat destruct H as [<-|H]; try destruct H.
Ltac ex_two r := destruct r as [|[|r]]; [| |cbn in *; lia].
Example C92_nonvacuous : consistent exA exD exG /\
  (forall q r, (q < 2)%nat -> (In r (nth q [[0; 1]; [2]]%nat []) <-> (r < 3)%nat /\ nth r [0; 0; 1]%Z 0%Z = Z.of_nat q)) /\
  (forall r, (r < 3)%nat -> u_gn (exU r) = map (fun j => Z.of_nat (exG r j)) (seq 0 (length (nth r exD []))) /\ u_dps (exU r) = nth r exD []) /\
  (forall q k, (q < 2)%nat -> (k < length (nth q [[0; 1]; [2]]%nat []))%nat -> fits 3 (exU (nth k (nth q [[0; 1]; [2]]%nat []) O)) (nth k (exM q) dP)) /\
  ctr_loops [0; 0; 1]%Z 0 [exU 0; exU 1] (exM 0) = Ret ([[1; 2]; [-2; -1]], [[]; [1]])%Z /\ ctr_loops [0; 0; 1]%Z 1 [exU 2] (exM 1) = Ret ([[1]], [[0]])%Z.
Proof.
  split; [|split; [|split; [|split; [|split; vm_compute; reflexivity]]]].
  - constructor; unfold exA, exD.
    + reflexivity.
    + intros r Hr. three r; cbn; repeat constructor.
    + intros r ps Hr Hps. three r; mems3 Hps; (split; [repeat constructor; cbn; intuition lia|intros q Hq; cbn in *; tauto]).
    + intros r p Hr Hp. three r; mems3 Hp; cbn; lia.
    + intros r p Hr Hp H. three r; three p; cbn in *; auto; lia.
    + intros r j k Hj Hk E. destruct r as [|[|[|[|r]]]]; [| | |cbn in Hj; lia|cbn in Hj; lia]; (destruct j as [|[|j]]; [| |cbn in Hj; lia]); (destruct k as [|[|k]]; [| |cbn in Hk; lia]); cbn in *; auto; lia.
    + intros r p Hr Hp. three r; three p; reflexivity.
    + intros r p j k Hr Hp Hj Hk E q. three r; three p; cbn in Hj, Hk; (destruct j as [|[|j]]; [| |lia]); (destruct k as [|[|k]]; [| |lia]); cbn in E; try lia; cbn; tauto.
  - intros q r Hq. ex_two q; cbn [nth In]; split.
    + intros [<-|[<-|[]]]; (split; [lia|reflexivity]).
    + intros [H E]. three r; cbn in E; auto; discriminate.
    + intros [<-|[]]; (split; [lia|reflexivity]).
    + intros [H E]. three r; cbn in E; auto; discriminate.
  - intros r Hr. three r; split; reflexivity.
  - intros q k Hq Hk. ex_two q; cbn [nth length] in Hk; [destruct k as [|[|k]]; [| |lia]|destruct k as [|k]; [|lia]]; (constructor; [reflexivity|reflexivity|intros l c Hl Hc; mems3 Hl; mems3 Hc; split; cbn; lia|intros ps p Hl Hc; mems3 Hl; mems3 Hc; lia|reflexivity]).
Qed.
Example C93_nonvacuous : ctr_ghosts 3 [exU 0; exU 1] (exM 0) = Ret [true; false; true] /\ ctr_flips 2 (exM 0) = Ret [true; false] /\
  SetUpDOFedEdges false (Some [false; true]) [(0, 1)]%nat = Ret ([true], [0]%nat, [0]%Z) /\ SetUpDOFedEdges false (Some [true; true]) [(0, 1)]%nat = Ret ([false], [], [-1]%Z) /\
  SetUpDOFedEdges false (Some [true; false; true]) [(0, 1); (1, 2)]%nat = Ret ([true; true], [0; 1]%nat, [0; 1]%Z) /\ de_map [0; 1]%Z (exU 0, nth 0 (exM 0) dP) = Ret [0]%Z /\
  (forall k, (k < 2)%nat -> (length (u_gv (nth k [exU 0; exU 1] dU)) <= length (p_vmap (nth k (exM 0) dP)))%nat /\ forall v, In v (p_vmap (nth k (exM 0) dP)) -> (0 <= v < 3)%Z) /\
  (forall m, In m (exM 0) -> length (p_flip m) = length (p_emap m) /\ forall e, In e (p_emap m) -> (0 <= e < 2)%Z).
Proof.
  repeat (split; [vm_compute; reflexivity|]). split.
  - intros k Hk. ex_two k; (split; [cbn; lia|intros v Hv; mems3 Hv; lia]).
  - intros m Hm. mems3 Hm; (split; [reflexivity|intros v Hv; mems3 Hv; lia]).
Qed.
