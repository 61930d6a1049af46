(** Theorems about the time-marching loops of the solver. *)
From Coq Require Import ZArith Reals List Lia Lra Bool Ratan.
From Verif Require Import Outcome RSum March_Model March_Spec March_Proofs March_Proofs2.
Import ListNotations.
Local Open Scope R_scope.

(** ** C64: the admissibility fix always comes to an end *)
Theorem fix_terminates F (k : kernels F) (on : bool) (s : F) :
  (** it returns or throws *)
  ((exists r, fix_admissibility k on s = Ok r) \/ fix_admissibility k on s = Throw) /\
  (** it leaves an admissible state as it is and reports nothing *)
  (is_admissible k s = true \/ on = false -> fix_admissibility k on s = Ok (0%Z, s)) /\
  (** it returns a nonzero number if the state was not admissible *)
  (is_admissible k s = false -> on = true -> forall n s', fix_admissibility k on s = Ok (n, s') -> (0 < n < 100000)%Z) /\
  (** it throws exactly if the state does not settle in [10^5] smoothings *)
  (is_admissible k s = false -> on = true -> (fix_admissibility k on s = Throw <-> forall n, settles k s n -> (100000 < 2 * Z.of_nat n)%Z)).
Proof.
  pose proof (fix_complete F k on s) as C. split; [apply fix_finishes|]. split; [|split].
  - intros [A| ->]; [rewrite A, orb_true_r in C|]; exact C.
  - intros A -> n s' E. rewrite A in C. cbn [negb orb] in C. destruct C as [(m & (M & _) & _ & L & E')|(E' & _)]; rewrite E' in E; [|discriminate]. assert (n = 2 * Z.of_nat m - 1)%Z as -> by congruence. unfold fix_limit in L. lia.
  - intros A ->. rewrite A in C. cbn [negb orb] in C. destruct C as [(m & S1 & _ & L & E')|(E' & N)]; split; intros H.
    + rewrite E' in H. discriminate.
    + specialize (H m S1). unfold fix_limit in L. lia.
    + exact N.
    + exact E'.
Qed.
Print Assumptions fix_terminates.

(** ** C37: admissible on return, and the number of smoothings reported *)
(** a flow that is admissible after the first smoothing only *)
Definition relapsing : kernels nat := {| is_admissible := fun f => Nat.eqb f 1; smooth := S; max_dt := fun _ _ f => (1, f); stage := fun _ _ f => f |}.
Theorem fix_admissible_refuted :
  ~ (forall F (k : kernels F) s n s', fix_admissibility k true s = Ok (n, s') -> is_admissible k s' = true) /\
  ~ (forall F (k : kernels F) s n s', fix_admissibility k true s = Ok (n, s') -> s' = times (Z.to_nat n) (smooth k) s).
Proof.
  assert (E : fix_admissibility relapsing true 0%nat = Ok (1%Z, 2%nat)) by (vm_compute; reflexivity). split; intros H; specialize (H _ _ _ _ _ E); vm_compute in H; discriminate.
Qed.
Print Assumptions fix_admissible_refuted.
(** What is true: the state has settled before the last smoothing, which is not checked; it is admissible on return if
    smoothing does not leave the admissible set; and one smoothing is left out of the number reported. *)
Theorem fix_admissible_partial F (k : kernels F) s n s' : fix_admissibility k true s = Ok (n, s') ->
  (is_admissible k s = true /\ n = 0%Z /\ s' = s) \/
  (is_admissible k s = false /\ exists m, settles k s m /\ (forall m', settles k s m' -> (m <= m')%nat) /\ s' = times (2 * m) (smooth k) s /\ n = (2 * Z.of_nat m - 1)%Z /\
   is_admissible k (times (2 * m - 1) (smooth k) s) = true /\
   ((forall f, is_admissible k f = true -> is_admissible k (smooth k f) = true) -> is_admissible k s' = true)).
Proof.
  intros E. pose proof (fix_complete F k true s) as C. cbn [negb orb] in C. destruct (is_admissible k s) eqn:A.
  - left. rewrite C in E. injection E as <- <-. auto.
  - right. split; [reflexivity|]. destruct C as [(m & S1 & S2 & L & E')|(E' & _)]; rewrite E' in E; [|discriminate]. assert (n = 2 * Z.of_nat m - 1)%Z as -> by congruence. assert (s' = times (2 * m) (smooth k) s) as -> by congruence.
    exists m. pose proof S1 as (M & _ & T). assert (T' : is_admissible k (times (2 * m - 1) (smooth k) s) = true) by (apply T; lia). repeat split; auto; try apply S1.
    intros P. replace (2 * m)%nat with (S (2 * m - 1)) by lia. cbn [times]. apply P. exact T'.
Qed.
Print Assumptions fix_admissible_partial.

(** a flow that takes 3 smoothings to become admissible and stays so: 6 smoothings, 5 reported *)
Definition recovering : kernels nat := {| is_admissible := fun f => Nat.leb 3 f; smooth := S; max_dt := fun _ _ f => (1, f); stage := fun _ _ f => f |}.
Example fix_example : fix_admissibility recovering true 0%nat = Ok (5%Z, 6%nat). Proof. vm_compute; reflexivity. Qed.
(** a flow that falls back after the second smoothing and recovers for good at the fourth: 8 smoothings, 7 reported *)
Definition twice : kernels nat := {| is_admissible := fun f => (Nat.eqb f 2 || Nat.leb 4 f)%bool; smooth := S; max_dt := fun _ _ f => (1, f); stage := fun _ _ f => f |}.
Example fix_example_relapse : fix_admissibility twice true 0%nat = Ok (7%Z, 8%nat). Proof. vm_compute; reflexivity. Qed.
(** a flow that never becomes admissible *)
Definition hopeless : kernels nat := {| is_admissible := fun f => false; smooth := fun f => f; max_dt := fun _ _ f => (1, f); stage := fun _ _ f => f |}.
Example fix_example_throw : fix_admissibility hopeless true 0%nat = Throw. Proof. vm_compute; reflexivity. Qed.

(** ** C65: counters *)
Theorem update_counters F (k : kernels F) (p : parameters) n (x : solver F) :
  ((exists x', updates k p n x = Ok x') \/ updates k p n x = Throw) /\
  forall x', updates k p n x = Ok x' ->
    ns_iteration x' = (ns_iteration x + Z.of_nat n)%Z /\ st_iteration x' = (st_iteration x + Z.of_nat n)%Z /\
    (in_sync x -> in_sync x') /\
    (** without fixes the flow time advances by the steps applied *)
    exists l, steps k p l (flow x) (flow x') /\ ((forall e, In e l -> fixed e = false) -> ns_flow_time x' = ns_flow_time x + total l /\ st_flow_time x' = st_flow_time x + total l) /\
              (fix_admis p = false -> forall e, In e l -> fixed e = false).
Proof.
  split.
  - revert x. induction n as [|n IH]; intros x; cbn [updates]; [left; eauto|]. enough (U : (exists y, update k p x = Ok y) \/ update k p x = Throw) by (destruct U as [(y & ->)| ->]; cbn [bind]; [apply IH|right; reflexivity]).
    unfold update. generalize (flow_iters p) as m. intros m. revert x. induction m as [|m IHm]; intros x; cbn [flow_loop]; [left; cbn [bind]; eauto|].
    enough (U : forall todo i x, (exists y, cheby_loop k p todo i x = Ok y) \/ cheby_loop k p todo i x = Throw) by (destruct (U (n_cheby_flow p) 0%nat x) as [(y & ->)| ->]; cbn [bind]; [apply IHm|right; reflexivity]).
    clear x. induction todo as [|todo IHl]; intros i x; cbn [cheby_loop]; [left; eauto|]. cbv zeta.
    assert (RF : forall x, (exists y, run_fix k p x = Ok y) \/ run_fix k p x = Throw).
    { intros y. unfold run_fix. destruct (fix_finishes F k (fix_admis p) (flow y)) as [(r & ->)| ->]; cbn [bind]; eauto. }
    match goal with |- context [run_stages k p ?dt ?y] => assert (RS : (exists r, run_stages k p dt y = Ok r) \/ run_stages k p dt y = Throw) end.
    { unfold run_stages. match goal with |- context [run_fix k p ?y] => destruct (RF y) as [(a & ->)| ->] end; cbn [bind]; [|right; reflexivity]. match goal with |- context [run_fix k p ?y] => destruct (RF y) as [(b & ->)| ->] end; cbn [bind]; eauto. }
    destruct RS as [(r & ->)| ->]; cbn [bind]; [|right; reflexivity]. destruct (fst r); [left; eauto|apply IHl].
  - intros x' E. apply updates_spec in E. destruct E as (l & SL & (A1 & A2 & A3 & A4 & A5) & _). split; [exact A3|]. split; [exact A4|]. split; [exact A5|]. exists l. split; [exact SL|]. split.
    + intros NF. rewrite (total_no_fix l NF) in A1, A2. auto.
    + intros OFF e IN. clear A1 A2 A3 A4 A5. induction SL as [|e' l f f' f'' O SL IH]; [destruct IN|]. destruct IN as [->|IN]; [|apply IH; exact IN].
      destruct O as (? & b1 & f1 & b2 & R1 & R2 & ->). unfold repaired in R1, R2. rewrite OFF in R1, R2. cbn [negb orb] in R1, R2. destruct R1 as (-> & _), R2 as (-> & _). reflexivity.
Qed.
Print Assumptions update_counters.

(** ** C38: flow time *)
(** A flow state that carries its own clock: each of the two stages advances it by half the step.  Each stage leaves an
    inadmissible state, which one smoothing repairs without touching the clock. *)
Definition clock : kernels (R * bool) :=
  {| is_admissible := snd; smooth := fun f => (fst f, true); max_dt := fun _ _ f => (1, f); stage := fun dt _ f => (fst f + dt / 2, false) |}.
Definition clock_parameters (cheby : nat) (on : bool) : parameters := {| flow_iters := 1; max_safety := 1; n_cheby_flow := cheby; max_time_step := 1; fix_admis := on |}.
Definition clock_start : solver (R * bool) := {| flow := (0, true); ns_time_step := 0; ns_flow_time := 0; ns_iteration := 0; ns_fix_iters := 0; st_time_step := 0; st_flow_time := 0; st_iteration := 0; st_fix_iters := 0 |}.
Lemma clock_fix t : fix_admissibility clock true (t, false) = Ok (1%Z, (t, true)).
Proof.
  pose proof (fix_complete _ clock true (t, false)) as C. cbn [negb orb is_admissible clock snd] in C. destruct C as [(n & (N & A & _) & _ & _ & E)|(_ & C)].
  - destruct n as [|[|n]]; [lia|exact E|discriminate A].
  - exfalso. assert (S1 : settles clock (t, false) 1) by (split; [lia|]; split; [reflexivity|]; intros [|[|j]] J; [lia|reflexivity|lia]). specialize (C 1%nat S1). unfold fix_limit in C. lia.
Qed.
Lemma clock_true p l f f' : steps clock p l f f' -> fst f' = fst f + total l.
Proof.
  assert (TI : forall n f, fst (times n (smooth clock) f) = fst f) by (intros n g; induction n; [reflexivity|assumption]).
  assert (RP : forall on f b f', repaired clock on f b f' -> fst f' = fst f).
  { intros on g b g' H. unfold repaired in H. destruct (negb on || is_admissible clock g)%bool; [destruct H as (_ & ->); reflexivity|]. destruct H as (_ & n & _ & _ & ->). apply TI. }
  induction 1 as [f|e l f f1 f2 O SL IH]; [cbn; ring|]. rewrite IH. destruct O as (? & b1 & g & b2 & R1 & R2 & _). apply RP in R1, R2. cbn [clock stage max_dt fst snd] in R1, R2. rewrite R2, R1. cbn [total]. field.
Qed.
Lemma off_fix F (k : kernels F) s : fix_admissibility k false s = Ok (0%Z, s). Proof. reflexivity. Qed.
Theorem flow_time_refuted :
  ~ (forall F (k : kernels F) p n x x' l, updates k p n x = Ok x' -> steps k p l (flow x) (flow x') -> ns_flow_time x' = ns_flow_time x + total l).
Proof.
  intros H. assert (E : exists x', updates clock (clock_parameters 1 true) 1 clock_start = Ok x' /\ flow x' = (1, true) /\ ns_flow_time x' = 0).
  { unfold updates, update. cbn [clock_parameters flow_iters flow_loop n_cheby_flow cheby_loop Nat.sub]. unfold run_stages, run_fix. rewrite step_single. cbn [clock_parameters fix_admis with_flow flow clock_start clock stage max_dt fst snd max_safety max_time_step]. fold clock.
    rewrite clock_fix. cbn [bind fst snd with_flow flow count_fix]. rewrite clock_fix. cbn [bind fst snd with_flow flow count_fix Z.eqb negb orb]. eexists. split; [reflexivity|]. cbn. split; [|reflexivity].
    f_equal. rewrite Rmin_left by lra. field. }
  destruct E as (x' & E & EF & ET). destruct (updates_spec clock _ _ _ _ E) as (l & SL & _). pose proof (H _ _ _ _ _ _ l E SL) as HT. apply clock_true in SL. rewrite EF in SL. rewrite ET in HT. cbn in *. lra.
Qed.
Print Assumptions flow_time_refuted.
(** What is true: the flow time advances by the steps in which nothing had to be fixed. *)
Theorem flow_time_partial F (k : kernels F) p n (x x' : solver F) : updates k p n x = Ok x' ->
  exists l, steps k p l (flow x) (flow x') /\ ns_flow_time x' = ns_flow_time x + total_unfixed l /\ st_flow_time x' = st_flow_time x + total_unfixed l.
Proof. intros E. apply updates_spec in E. destruct E as (l & SL & (A1 & A2 & _) & _). exists l. auto. Qed.
Print Assumptions flow_time_partial.

(** ** C67: Chebyshev steps *)
Theorem chebyshev_steps n : (1 <= n)%nat ->
  (** the error amplification of [n] Euler steps of these sizes is the Chebyshev polynomial of degree [n] *)
  (forall theta, rprod n (fun i => 1 - chebyshev_step n i * (1 - cos theta)) = cos (INR n * theta)) /\
  (** so every mode that is stable with single steps is stable with [n] steps *)
  (forall z, 0 <= z <= 2 -> Rabs (rprod n (fun i => 1 - chebyshev_step n i * z)) <= 1) /\
  (** the steps are positive, get larger, and [chebyshev_step n (n - 1)] is the largest *)
  (forall i, (i < n)%nat -> 0 < chebyshev_step n i <= chebyshev_step n (n - 1)) /\
  (forall i j, (i < j)%nat -> (j < n)%nat -> chebyshev_step n i < chebyshev_step n j) /\
  (** together they advance the time by [n^2] *)
  rsum n (fun i => chebyshev_step n i) = INR n ^ 2.
Proof.
  intros N. assert (ID : forall theta, rprod n (fun i => 1 - chebyshev_step n i * (1 - cos theta)) = cos (INR n * theta)).
  { intros t. rewrite <- cheb_cos, <- amplify_cheb by exact N. reflexivity. }
  split; [exact ID|]. split; [|split; [|split]].
  - intros z Z. replace z with (1 - cos (acos (1 - z))) by (rewrite cos_acos by lra; ring). rewrite ID. apply Rabs_le. apply COS_bound.
  - intros i I. split; [apply step_positive; exact I|]. destruct (Nat.eq_dec i (n - 1)) as [->|]; [lra|]. left. apply step_increasing; lia.
  - intros. apply step_increasing; assumption.
  - apply step_sum. exact N.
Qed.
Print Assumptions chebyshev_steps.
Example chebyshev_example : chebyshev_step 2 0 + chebyshev_step 2 1 = 4 /\ chebyshev_step 2 0 = 2 - sqrt 2 /\ chebyshev_step 1 0 = 1.
Proof.
  pose proof (step_sum 2 ltac:(lia)) as E. cbn [rsum INR] in E. split; [lra|]. split; [|apply step_single]. rewrite step_eq. unfold angle. cbn [INR].
  replace ((1 + 1 - 0 - 1 / 2) * PI / (1 + 1)) with (PI - PI / 4) by field. rewrite Rtrigo_facts.cos_pi_minus, cos_PI4. assert (Q : sqrt 2 * sqrt 2 = 2) by (apply sqrt_def; lra). assert (P : 0 < sqrt 2) by (apply sqrt_lt_R0; lra).
  replace (1 - - (1 / sqrt 2)) with ((sqrt 2 + 1) / sqrt 2) by (field; lra). apply Rmult_eq_reg_r with ((sqrt 2 + 1) / sqrt 2); [|apply Rgt_not_eq, Rdiv_lt_0_compat; lra].
  unfold Rdiv at 1. rewrite Rmult_1_l, Rinv_l by (apply Rgt_not_eq, Rdiv_lt_0_compat; lra). apply Rmult_eq_reg_r with (sqrt 2); [|lra]. replace ((2 - sqrt 2) * ((sqrt 2 + 1) / sqrt 2) * sqrt 2) with (2 * sqrt 2 + 2 - sqrt 2 * sqrt 2 - sqrt 2) by (field; lra). rewrite Q. ring.
Qed.

(** ** C66: the largest time step allowed *)
Theorem max_time_step_refuted : ~ (forall F (k : kernels F) p x x', update k p x = Ok x' -> (1 <= flow_iters p)%nat -> (1 <= n_cheby_flow p)%nat -> fix_admis p = false -> ns_time_step x' <= max_time_step p).
Proof.
  intros H. assert (E : exists x', update clock (clock_parameters 2 false) clock_start = Ok x' /\ ns_time_step x' = chebyshev_step 2 1).
  { unfold update. cbn [clock_parameters flow_iters flow_loop n_cheby_flow cheby_loop Nat.sub]. unfold run_stages, run_fix. cbn [clock_parameters fix_admis]. rewrite !off_fix. cbn [bind fst snd Z.eqb negb orb]. rewrite !off_fix. cbn [bind fst snd Z.eqb negb orb]. rewrite !off_fix. cbn [bind fst snd Z.eqb negb orb]. rewrite !off_fix. cbn [bind fst snd Z.eqb negb orb].
    eexists. split; [reflexivity|]. cbn [count_iteration count_time ns_time_step max_dt clock clock_parameters fst max_time_step]. rewrite Rmin_left by lra. ring. }
  destruct E as (x' & E & ET). specialize (H _ _ _ _ _ E). cbn [clock_parameters flow_iters n_cheby_flow fix_admis max_time_step] in H. specialize (H ltac:(lia) ltac:(lia) eq_refl). rewrite ET in H.
  pose proof (step_last_exceeds 2 ltac:(lia)) as L. cbn [Nat.sub] in L. lra.
Qed.
Print Assumptions max_time_step_refuted.
(** What is true: every step is at most the largest Chebyshev step times the parameter, which is the parameter itself
    without Chebyshev steps ([n_cheby_flow = 1]). *)
Theorem max_time_step_partial F (k : kernels F) p n (x x' : solver F) : updates k p n x = Ok x' -> 0 <= max_time_step p ->
  exists l, steps k p l (flow x) (flow x') /\ ns_flow_time x' = ns_flow_time x + total_unfixed l /\
    forall e, In e l -> step e <= max_time_step p * chebyshev_step (n_cheby_flow p) (n_cheby_flow p - 1) /\ (n_cheby_flow p = 1%nat -> step e <= max_time_step p).
Proof.
  intros E M. apply updates_spec in E. destruct E as (l & SL & (A & _) & B). exists l. split; [exact SL|]. split; [exact A|]. intros e IN. destruct (B e IN) as (i & m & I & L & ->).
  assert (N : (1 <= n_cheby_flow p)%nat) by lia. destruct (chebyshev_steps _ N) as (_ & _ & P & _). specialize (P i I). split.
  - apply Rle_trans with (max_time_step p * chebyshev_step (n_cheby_flow p) i); [apply Rmult_le_compat_r; lra|apply Rmult_le_compat_l; lra].
  - intros N1. rewrite N1 in *. assert (i = 0)%nat as -> by lia. rewrite step_single. lra.
Qed.
Print Assumptions max_time_step_partial.
(** two updates of the clock with fixing switched off: the flow time is the time on the clock *)
Example update_example : exists x', updates clock (clock_parameters 1 false) 2 clock_start = Ok x' /\ fst (flow x') = 2 /\ ns_flow_time x' = 2 /\ ns_iteration x' = 2%Z.
Proof.
  unfold updates, update. cbn [clock_parameters flow_iters flow_loop n_cheby_flow cheby_loop Nat.sub]. rewrite step_single. unfold run_stages, run_fix. cbn [clock_parameters fix_admis]. repeat (rewrite !off_fix; cbn [bind fst snd Z.eqb negb orb]).
  eexists. split; [reflexivity|]. cbn [count_iteration count_time count_fix with_flow ns_time_step ns_flow_time ns_iteration flow max_dt stage clock clock_start clock_parameters fst snd max_time_step Z.add]. rewrite Rmin_left by lra. repeat split; lra.
Qed.
