(** Specification of the time-marching loops: the vocabulary of the theorems. *)
From Coq Require Import ZArith Reals List.
From Verif Require Import Outcome RSum March_Model.
Import ListNotations.

(** [f] applied [n] times *)
Fixpoint times {A} (n : nat) (f : A -> A) (a : A) : A := match n with O => a | S n' => f (times n' f a) end.

(** [k] smoothings bring the state [s] into the admissible set, and it stays there for as many further smoothings less one *)
Definition settles {F} (k : kernels F) (s : F) (n : nat) : Prop :=
  (1 <= n)%nat /\ is_admissible k (times (n - 1) (smooth k) s) = false /\ forall j, (n <= j < 2 * n)%nat -> is_admissible k (times j (smooth k) s) = true.

(** [repaired k on f flag f']: [f'] is what the admissibility fix makes of [f]: nothing if the fix is switched off or [f] is
    admissible; otherwise twice as many smoothings as it takes the state to settle. *)
Definition repaired {F} (k : kernels F) (on : bool) (f : F) (flag : bool) (f' : F) : Prop :=
  if (negb on || is_admissible k f)%bool then flag = false /\ f' = f
  else flag = true /\ exists n, settles k f n /\ (forall m, settles k f m -> (n <= m)%nat) /\ f' = times (2 * n) (smooth k) f.

(** A time step applied to the flow state: its size and whether the admissibility had to be fixed in it. *)
Record event := { step : R; fixed : bool }.
(** sum of the time steps applied *)
Fixpoint total (l : list event) : R := match l with nil => 0%R | e :: l => (step e + total l)%R end.
(** sum of the time steps applied without a fix *)
Fixpoint total_unfixed (l : list event) : R := match l with nil => 0%R | e :: l => ((if fixed e then 0 else step e) + total_unfixed l)%R end.

(** [one_step k p e f f']: flow state [f'] is what a time step of size [step e] makes of [f], with the admissibility fix
    after each of the two stages, and [fixed e] tells whether either of them changed the state. *)
Definition one_step {F} (k : kernels F) (p : parameters) (e : event) (f f' : F) : Prop :=
  exists safety b1 f1 b2,
    repaired k (fix_admis p) (stage k (step e) 0 (snd (max_dt k safety (max_safety p) f))) b1 f1 /\
    repaired k (fix_admis p) (stage k (step e) 1 f1) b2 f' /\
    fixed e = (b1 || b2)%bool.
Inductive steps {F} (k : kernels F) (p : parameters) : list event -> F -> F -> Prop :=
| steps_nil f : steps k p nil f f
| steps_cons e l f f' f'' : one_step k p e f f' -> steps k p l f' f'' -> steps k p (e :: l) f f''.

(** The copy of the counters in the namespace and in [Solver::status] are the same. *)
Definition in_sync {F} (x : solver F) : Prop :=
  ns_time_step x = st_time_step x /\ ns_flow_time x = st_flow_time x /\ ns_iteration x = st_iteration x /\ ns_fix_iters x = st_fix_iters x.
