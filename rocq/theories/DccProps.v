(** C35: cumulating distributed vectors. *)
From Verif Require Import Base AGroup LinAlg Instances EQCModel ReduceModel NetModel DccModel EQCProps ReduceProps NetProofs DccProofs.
Local Open Scope nat_scope.

(** *** specification
    [dps] r k: the ranks rank r shares its dof k with, on every rank; dofs are named across ranks by [key] and [rows_match dps dps key] (ReduceProps.v) says that the ranks' tables fit together.
    A distributed vector represents, for a global dof g, the sum over all ranks r and all dofs k of r named g of the value of r for k. *)
Definition sum_of {B : Blk} (dps : list (list (list nat))) (key : nat -> nat -> nat) (vs : nat -> list (X B)) (g : nat) : X B :=
  xsum (length dps) (fun r => xsum (length (nth r dps [])) (fun k => if key r k =? g then ent (vs r) k else x0)).
Definition lowest (dps : list (list (list nat))) (r k : nat) : Prop := forall q, In q (nth k (nth r dps []) []) -> r < q.
(** all executions of [P] on all ranks, whatever the order of computations and deliveries, end (after the same number of steps), never get stuck before, never touch a buffer in use, and end with [Q] *)
Definition always {V A} (np : nat) (sends recvs : kind -> nat -> nat -> bool) (P : list (instr V A)) (v : nat -> V) (g m : nat -> list (msg A)) (Q : (nat -> V) -> Prop) : Prop :=
  exists n, forall i u, steps np sends recvs i (start np P v g m) u ->
    (forall l, exec1 np sends recvs l u <> UB) /\ i <= n /\ (i < n -> exists u', step np sends recvs u u') /\ (i = n -> finished np u /\ Q (vec u)).
(** one buffer per rank, any contents *)
Definition bufs {A} (np : nat) (b : nat -> list (msg A)) : Prop := forall r, r < np -> length (b r) = np.
Definition here {A} (v : list A) : list A := v.
Definition there {A} (_ w : list A) : list A := w.

Lemma always_lock {V A} np sends recvs (P : list (instr V A)) v g m (Q : (nat -> V) -> Prop) :
  (forall k r q, r < np -> q < np -> sends k r q = recvs k q r) -> safe P = true ->
  (forall w, (forall r, w r = lv (lockstep np recvs P (mkLst v g m)) r) -> Q w) -> always np sends recvs P v g m Q.
Proof.
  intros HM HS HQ. destruct (every_schedule np sends recvs HM P v g m HS) as (n & Hn). exists n. intros i u Hu. destruct (Hn i u Hu) as (A1 & A2 & A3 & A4). split; auto. split; auto. split; auto. intros E. destruct (A4 E) as (A5 & A6 & _). split; auto.
Qed.

Section C35.
  Context {B : Blk} (L : BlkLaws B) (dps : list (list (list nat))) (key : nat -> nat -> nat) (RM : rows_match dps dps key).
  Local Notation X := (X B).
  Variables (vs : nat -> list X) (g m : nat -> list (msg X)).
  Hypothesis HV : forall r, r < length dps -> length (vs r) = length (nth r dps []).
  Hypothesis HG : bufs (length dps) g.
  Hypothesis HM : bufs (length dps) m.
  Notation D2C_prog st := (DIS2CO dps (@here X) there st).
  Notation C2C_prog st := (CO2CU dps (@here X) there st).
  Lemma start_ok : (forall r, r < nranks dps -> length (g r) = nranks dps /\ length (m r) = nranks dps). Proof. intros r Hr. split; [now apply HG|now apply HM]. Qed.
  Lemma lowest_iff r k : r < length dps -> k < length (nth r dps []) -> (lowest dps r k <-> is_master dps r k = true).
  Proof. intros Hr Hk. symmetry. apply (master_spec dps key RM r k Hr Hk). Qed.
  Lemma c35_d2c : always (length dps) (dcc_sends dps) (dcc_recvs dps) (fst (D2C_prog DISTRIBUTED)) vs g m (fun ws =>
    (forall r, r < length dps -> length (ws r) = length (nth r dps []) /\ forall k, k < length (nth r dps []) ->
      (lowest dps r k -> ent (ws r) k = sum_of dps key vs (key r k)) /\ (~ lowest dps r k -> ent (ws r) k = x0)) /\
    forall i, sum_of dps key ws i = sum_of dps key vs i).
  Proof.
    apply always_lock; [intros; now apply (req_match dps key RM)|reflexivity|]. intros ws HW. destruct (d2c_lock L dps key RM (@here X) there (fun _ _ => eq_refl) (fun _ _ _ => eq_refl) (mkLst vs g m) start_ok HV) as (_ & C & _).
    cbv zeta in C. cbn [lv] in C. set (t := lockstep _ _ _ _) in *. split.
    - intros r Hr. destruct (C r Hr) as (C1 & C2). rewrite HW. split; [exact C1|]. intros k Hk. specialize (C2 k Hk). split.
      + intros HL. apply lowest_iff in HL; auto. rewrite HL in C2. exact C2.
      + intros HL. destruct (is_master dps r k) eqn:EM; [|exact C2]. destruct HL. now apply lowest_iff.
    - intros i. transitivity (sum_of dps key (lv t) i). { apply xsum_ext. intros r _. now rewrite HW. } apply (conc_total L dps key RM (vs) (lv t) i). exact C.
  Qed.
  Lemma c35_cumulate : let (P1, st1) := D2C_prog DISTRIBUTED in let (P2, st2) := C2C_prog st1 in st1 = DISTRIBUTED /\ st2 = CUMULATED /\
    always (length dps) (dcc_sends dps) (dcc_recvs dps) (P1 ++ P2) vs g m (fun ws =>
      forall r, r < length dps -> length (ws r) = length (nth r dps []) /\ forall k, k < length (nth r dps []) -> ent (ws r) k = sum_of dps key vs (key r k)).
  Proof.
    destruct (D2C_prog DISTRIBUTED) as [P1 st1] eqn:E1. assert (st1 = DISTRIBUTED) by (inversion E1; auto). subst st1. destruct (C2C_prog DISTRIBUTED) as [P2 st2] eqn:E2. assert (st2 = CUMULATED) by (inversion E2; auto). split; auto. split; auto.
    apply always_lock; [intros; now apply (req_match dps key RM)| |]. { inversion E1. inversion E2. reflexivity. }
    intros ws HW. destruct (d2c_lock L dps key RM (@here X) there (fun _ _ => eq_refl) (fun _ _ _ => eq_refl) (mkLst vs g m) start_ok HV) as (C0 & C & _). rewrite E1 in C0, C. cbn [fst] in C0, C. cbv zeta in C0, C. cbn [lv] in C.
    rewrite lockstep_app in HW. set (t := lockstep _ _ P1 _) in *.
    destruct (c2c_lock dps key RM (@here X) there (fun _ _ => eq_refl) t C0) as (_ & D & _). { intros r Hr. now destruct (C r Hr). } rewrite E2 in D. cbn [fst] in D. cbv zeta in D. fold (nranks dps) in HW. set (t2 := lockstep _ _ P2 _) in *.
    pose proof (conc_cum dps key RM vs _ _ C D) as Y. intros r Hr. rewrite HW. exact (Y r Hr).
  Qed.
End C35.

(** Distributed to concentrated: on every schedule the lowest rank sharing a dof ends with the sum, all others with zero; the represented vector does not change *)
Theorem C35_distributed_to_concentrated : forall B, BlkLaws B -> forall dps key, rows_match dps dps key -> forall (vs : nat -> list (X B)) g m,
  (forall r, r < length dps -> length (vs r) = length (nth r dps [])) -> bufs (length dps) g -> bufs (length dps) m ->
  always (length dps) (dcc_sends dps) (dcc_recvs dps) (fst (DIS2CO dps here there DISTRIBUTED)) vs g m (fun ws =>
    (forall r, r < length dps -> length (ws r) = length (nth r dps []) /\ forall k, k < length (nth r dps []) ->
      (lowest dps r k -> ent (ws r) k = sum_of dps key vs (key r k)) /\ (~ lowest dps r k -> ent (ws r) k = x0)) /\
    forall i, sum_of dps key ws i = sum_of dps key vs i).
Proof. intros. now apply c35_d2c. Qed.
(** both exchanges: on every schedule every rank ends with the sum for each of its dofs *)
Theorem C35_cumulate : forall B, BlkLaws B -> forall dps key, rows_match dps dps key -> forall (vs : nat -> list (X B)) g m,
  (forall r, r < length dps -> length (vs r) = length (nth r dps [])) -> bufs (length dps) g -> bufs (length dps) m ->
  let (P1, st1) := DIS2CO dps here there DISTRIBUTED in let (P2, st2) := CO2CU dps here there st1 in st1 = DISTRIBUTED /\ st2 = CUMULATED /\
    always (length dps) (dcc_sends dps) (dcc_recvs dps) (P1 ++ P2) vs g m (fun ws =>
      forall r, r < length dps -> length (ws r) = length (nth r dps []) /\ forall k, k < length (nth r dps []) -> ent (ws r) k = sum_of dps key vs (key r k)).
Proof. intros. now apply c35_cumulate. Qed.
(** whenever a rank sends to another one, that one receives, into a buffer of the same size *)
Theorem C35_messages_match : forall dps key, rows_match dps dps key -> forall r q, r < length dps -> q < length dps ->
  (forall k, dcc_sends dps k r q = dcc_recvs dps k q r) /\ length (m_ex dps r q) = length (g_ex dps q r) /\
  (forall i, In i (g_ex dps r q) -> i < length (nth r dps [])) /\ (forall i, In i (m_ex dps r q) -> i < length (nth r dps [])).
Proof.
  intros dps key RM r q Hr Hq. split. { intros k. now apply (req_match dps key RM). } split. { now apply (ex_len dps key RM). } split.
  - intros i Hi. now apply in_g in Hi as (Hi & _).
  - intros i Hi. now apply in_m in Hi as (Hi & _).
Qed.
(** on a vector marked as cumulated the second exchange does nothing *)
Theorem C35_cumulated_idle : forall B dps key, rows_match dps dps key -> forall (vs : nat -> list (X B)) g m, let (P, st) := CO2CU dps here there CUMULATED in st = CUMULATED /\
  always (length dps) (dcc_sends dps) (dcc_recvs dps) P vs g m (fun ws => forall r, ws r = vs r).
Proof. intros B dps key RM vs g m. cbn. split; auto. apply always_lock; [intros; now apply (req_match dps key RM)|reflexivity|]. intros w Hw r. now rewrite Hw. Qed.
(** three ranks, dofs with different sharing (d3, k3 of ReduceProps.v) *)
Lemma ex3_dofs : rows_match d3 d3 k3.
Proof.
  assert (E : forall r, length (nth r d3 []) = length (nth r t3 [])). { intros r. do 3 (destruct r as [|r]; [reflexivity|]). now destruct r. }
  destruct ex3_ok as [H1 H2 H3 H4 H5]. constructor.
  - intros r k Hr Hk. rewrite E in Hk. exact (H1 r k Hr Hk).
  - intros r k k' Hr. rewrite E. exact (H2 r k k' Hr).
  - intros r k q Hr Hk Hq. rewrite E in Hk. destruct (H3 r k q Hr Hk Hq) as (k' & K1 & K2). exists k'. rewrite E. auto.
  - intros r k q k' Hr Hk Hq Hk'. rewrite E in Hk, Hk'. exact (H4 r k q k' Hr Hk Hq Hk').
  - intros r q i j i' j' Hr Hq. rewrite !E. exact (H5 r q i j i' j' Hr Hq).
Qed.

Definition v3 (r : nat) : list Z := nth r [[1; 2; 3; 4]; [10; 20; 30; 40]; [100; 200]]%Z [].
Definition b3 (_ : nat) : list (msg Z) := [[7]; []; [8]]%Z.
Example C35_ex : rows_match d3 d3 k3 /\ (forall r, r < length d3 -> length (v3 r) = length (nth r d3 [])) /\ bufs (length d3) b3 /\
  (exists u, let ws := lv (lockstep 3 (dcc_recvs d3) (fst (DIS2CO d3 here there DISTRIBUTED) ++ fst (CO2CU d3 here there DISTRIBUTED)) (mkLst (V:=list (X ZBlk)) v3 b3 b3)) in
     u = [ws 0; ws 1; ws 2] /\ u = [[11; 2; 123; 34]; [11; 123; 34; 240]; [123; 240]]%Z).
Proof.
  split; [exact ex3_dofs|]. split. { intros r Hr. do 3 (destruct r as [|r]; [reflexivity|]). cbn in Hr. lia. } split. { intros r _. reflexivity. } eexists. split; [reflexivity|]. vm_compute. reflexivity.
Qed.

(** But the first exchange applied to a vector marked as cumulated is wrong: it should only keep the master's value; instead whatever is left in the receive buffers is added.
    Rank 0 has 11 for its first dof after cumulating; concentrating that vector again it ends with 22, on every schedule. *)
Theorem C35_concentrate_cumulated_refuted : rows_match d3 d3 k3 /\
  let P1 := DIS2CO (B:=ZBlk) d3 here there DISTRIBUTED in let P2 := CO2CU (B:=ZBlk) d3 here there (snd P1) in let P3 := DIS2CO (B:=ZBlk) d3 here there (snd P2) in
  snd P2 = CUMULATED /\ snd P3 = DISTRIBUTED /\
  always 3 (dcc_sends d3) (dcc_recvs d3) (fst P1 ++ fst P2) v3 b3 b3 (fun ws => ent (B:=ZBlk) (ws 0) 0 = 11%Z) /\
  always 3 (dcc_sends d3) (dcc_recvs d3) (fst P1 ++ fst P2 ++ fst P3) v3 b3 b3 (fun ws => ent (B:=ZBlk) (ws 0) 0 = 22%Z).
Proof.
  split; [exact ex3_dofs|]. split; [reflexivity|]. split; [reflexivity|]. assert (HM : forall k r q, r < 3 -> q < 3 -> dcc_sends d3 k r q = dcc_recvs d3 k q r) by (intros; now apply (req_match d3 k3 ex3_dofs)). split.
  - apply always_lock; [exact HM|reflexivity|]. intros w Hw. rewrite Hw. vm_compute. reflexivity.
  - apply always_lock; [exact HM|reflexivity|]. intros w Hw. rewrite Hw. vm_compute. reflexivity.
Qed.
Print Assumptions C35_distributed_to_concentrated.
Print Assumptions C35_cumulate.
Print Assumptions C35_messages_match.
Print Assumptions C35_cumulated_idle.
Print Assumptions C35_concentrate_cumulated_refuted.
