(** Property theorems: C33 (stopwatches). *)
From Coq Require Import ZArith QArith List Bool.
From Verif Require Import Outcome Stopwatch_Model Stopwatch_Spec Stopwatch_Proofs.
Import ListNotations.

(** C33. After any history of calls [running], [n_calls] and [time] are what the history says: whether the latest start
    or pause is a start, and the number and total duration of the intervals completed since the last reset. *)
Theorem stopwatch_history : forall h,
  let s := sw_run sw_new h in let past := rev h in
  sw_r s = is_running past /\ sw_n s = Z.of_nat (length (completed past)) /\
  (sw_t s == total (completed past) # 1000000000)%Q /\ (sw_r s = true -> sw_started s = opened past).
Proof. exact sw_history. Qed.
Print Assumptions stopwatch_history.

(** C33. Exactly the redundant starts and pauses are rejected. *)
Theorem stopwatch_rejects : forall h op,
  match op with
  | Start _ => sw_call (sw_run sw_new h) op = Throw <-> is_running (rev h) = true
  | Pause _ => sw_call (sw_run sw_new h) op = Throw <-> is_running (rev h) = false
  | Reset => sw_call (sw_run sw_new h) op <> Throw
  end.
Proof. exact sw_reject. Qed.
Print Assumptions stopwatch_rejects.

(** C33. Adding stopwatches adds times and call counts, and is rejected exactly when one of them is running. *)
Theorem stopwatch_add : forall h1 h2,
  let s1 := sw_run sw_new h1 in let s2 := sw_run sw_new h2 in
  if is_running (rev h1) || is_running (rev h2) then sw_add s1 s2 = Throw /\ sw_add_assign s1 s2 = Throw
  else exists s s', sw_add s1 s2 = Ok s /\ sw_add_assign s1 s2 = Ok s' /\ sw_r s = false /\ sw_r s' = false /\
       sw_n s = Z.of_nat (length (completed (rev h1) ++ completed (rev h2))) /\ sw_n s' = sw_n s /\
       (sw_t s == total (completed (rev h1) ++ completed (rev h2)) # 1000000000)%Q /\ (sw_t s' == sw_t s)%Q.
Proof. exact sw_addition. Qed.
Print Assumptions stopwatch_add.

(** Two intervals, a redundant start and pause, and a reset in the middle of the second interval. *)
Example stopwatch_example :
  let h := [Start 0; Start 5; Pause 10; Pause 11; Start 20; Reset; Pause 26] in
  completed (rev h) = [(20, 26)]%Z /\ sw_n (sw_run sw_new h) = 1%Z /\ (sw_t (sw_run sw_new h) == 6 # 1000000000)%Q /\
  completed (rev [Start 0; Start 5; Pause 10; Pause 11; Start 20; Pause 26]) = [(20, 26); (0, 10)]%Z.
Proof. repeat split. Qed.
