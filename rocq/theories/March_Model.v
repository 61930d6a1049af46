(** Model of the time-marching loops of the solver: src/Solver.cpp:834-886 ([Solver::update]), 961-1095
    ([Solver::fix_admissibility], control flow and counters) and src/math.cpp:104-107 ([math::chebyshev_step]).

    Simplifications.  [double] is modelled by [R] and [int] counters by [Z] (they stay below [10^5 + 1] in
    [fix_admissibility]; the totals are assumed not to reach [INT_MAX]).  The numerical kernels are arbitrary functions
    of an arbitrary type of flow states (record [kernels]); this includes everything they leave in the elements (local
    time steps, reference state, artificial viscosity...).  [n_cheby_flow] is an integer, as in include/Case.hil:130-135.
    Stop watches, messages and visualisation files are left out. *)
From Coq Require Import ZArith Reals List.
From Verif Require Import Outcome.
Import ListNotations.

(** src/math.cpp:104-107 *)
Definition chebyshev_step (n_steps i_step : nat) : R := (1 / (1 - cos ((INR n_steps - INR i_step - 1 / 2) * PI / INR n_steps)))%R.

(** what the loops call *)
Record kernels (F : Type) := {
  is_admissible : F -> bool;         (* src/Solver.cpp:921-959 *)
  smooth : F -> F;                   (* src/Solver.cpp:998-1086: body of the loop of [fix_admissibility] after the checks *)
  max_dt : R -> R -> F -> R * F;     (* [Solver::max_dt]: the stable time step; sets local time steps in the elements *)
  stage : R -> nat -> F -> F         (* src/Solver.cpp:854-865: boundary conditions and stage [i] of a step [dt] *)
}.
Arguments is_admissible {F}. Arguments smooth {F}. Arguments max_dt {F}. Arguments stage {F}.

(** [std::numeric_limits<int>::max()] *)
Definition int_max : Z := 2147483647.
(** the bound [1e5] of src/Solver.cpp:974 *)
Definition fix_limit : Z := 100000.

(** src/Solver.cpp:973-1087: [for (iter = 0; iter < n_iters; ++iter)].  Result: [iter] on exit and the state.
    [fuel] bounds the recursion; [NoFuel] is shown to be unreachable. *)
Fixpoint fix_loop {F} (k : kernels F) (fuel : nat) (iter n_iters : Z) (s : F) : outcome (Z * F) :=
  match fuel with
  | O => NoFuel
  | S fuel' =>
    if (iter <? n_iters)%Z then
      if negb (iter <? fix_limit)%Z then Throw  (* line 974 *)
      else if is_admissible k s then
        if (iter =? 0)%Z then Ok (iter + 1, s)%Z  (* lines 987-990: [++iter; break;] *)
        else let n_iters := Z.min n_iters (2 * iter) in fix_loop k fuel' (iter + 1) n_iters (smooth k s)
      else let n_iters := int_max in fix_loop k fuel' (iter + 1) n_iters (smooth k s)
    else Ok (iter, s)
  end.

(** src/Solver.cpp:961-1095: the number added to the counters and the state; the returned [bool] is [iter <> 0].
    [on] is the member [fix_admis]. *)
Definition fix_admissibility {F} (k : kernels F) (on : bool) (s : F) : outcome (Z * F) :=
  if negb on then Ok (0%Z, s)
  else let! r := fix_loop k (Z.to_nat (fix_limit + 1)) 0 int_max s in Ok ((fst r - 1)%Z, snd r).

(** parameters in the namespace (src/Solver.cpp:150-166) and the switch [fix_admis] *)
Record parameters := { flow_iters : nat; max_safety : R; n_cheby_flow : nat; max_time_step : R; fix_admis : bool }.

(** the part of the solver that the loops change: the flow state, the variables of the namespace and [Solver::status] *)
Record solver (F : Type) := {
  flow : F;
  ns_time_step : R; ns_flow_time : R; ns_iteration : Z; ns_fix_iters : Z;
  st_time_step : R; st_flow_time : R; st_iteration : Z; st_fix_iters : Z
}.
Arguments flow {F}. Arguments ns_time_step {F}. Arguments ns_flow_time {F}. Arguments ns_iteration {F}. Arguments ns_fix_iters {F}.
Arguments st_time_step {F}. Arguments st_flow_time {F}. Arguments st_iteration {F}. Arguments st_fix_iters {F}.

Definition with_flow {F} (x : solver F) (f : F) : solver F :=
  {| flow := f; ns_time_step := ns_time_step x; ns_flow_time := ns_flow_time x; ns_iteration := ns_iteration x; ns_fix_iters := ns_fix_iters x;
     st_time_step := st_time_step x; st_flow_time := st_flow_time x; st_iteration := st_iteration x; st_fix_iters := st_fix_iters x |}.
(** src/Solver.cpp:1090-1091 *)
Definition count_fix {F} (x : solver F) (iter : Z) : solver F :=
  {| flow := flow x; ns_time_step := ns_time_step x; ns_flow_time := ns_flow_time x; ns_iteration := ns_iteration x; ns_fix_iters := ns_fix_iters x + iter;
     st_time_step := st_time_step x; st_flow_time := st_flow_time x; st_iteration := st_iteration x; st_fix_iters := st_fix_iters x + iter |}.
(** src/Solver.cpp:872-875 *)
Definition count_time {F} (x : solver F) (dt : R) : solver F :=
  {| flow := flow x; ns_time_step := dt; ns_flow_time := (ns_flow_time x + dt)%R; ns_iteration := ns_iteration x; ns_fix_iters := ns_fix_iters x;
     st_time_step := dt; st_flow_time := (st_flow_time x + dt)%R; st_iteration := st_iteration x; st_fix_iters := st_fix_iters x |}.
(** src/Solver.cpp:879-881 *)
Definition count_iteration {F} (x : solver F) : solver F :=
  {| flow := flow x; ns_time_step := ns_time_step x; ns_flow_time := ns_flow_time x; ns_iteration := ns_iteration x + 1; ns_fix_iters := ns_fix_iters x;
     st_time_step := st_time_step x; st_flow_time := st_flow_time x; st_iteration := st_iteration x + 1; st_fix_iters := st_fix_iters x |}.

(** src/Solver.cpp:867 with 961-1095: fix the state and count; the [bool] is the value returned by [fix_admissibility] *)
Definition run_fix {F} (k : kernels F) (p : parameters) (x : solver F) : outcome (bool * solver F) :=
  let! r := fix_admissibility k (fix_admis p) (flow x) in
  Ok (negb (fst r =? 0)%Z, count_fix (with_flow x (snd r)) (fst r)).

(** src/Solver.cpp:853-868: the loop over the two stages, unrolled *)
Definition run_stages {F} (k : kernels F) (p : parameters) (dt : R) (x : solver F) : outcome (bool * solver F) :=
  let! a := run_fix k p (with_flow x (stage k dt 0 (flow x))) in
  let! b := run_fix k p (with_flow (snd a) (stage k dt 1 (flow (snd a)))) in
  Ok ((fst b || fst a)%bool, snd b).

(** src/Solver.cpp:846-876: iterations [i_cheby], [i_cheby + 1], ... ([left] of them) of the inner loop *)
Fixpoint cheby_loop {F} (k : kernels F) (p : parameters) (left i_cheby : nat) (x : solver F) : outcome (solver F) :=
  match left with
  | O => Ok x
  | S left' =>
    let max_cheby := chebyshev_step (n_cheby_flow p) (n_cheby_flow p - 1) in
    let m := max_dt k (max_safety p / max_cheby)%R (max_safety p) (flow x) in
    let nominal_dt := Rmin (fst m) (max_time_step p) in
    let dt := (nominal_dt * chebyshev_step (n_cheby_flow p) i_cheby)%R in
    let! r := run_stages k p dt (with_flow x (snd m)) in
    if fst r then Ok (snd r)  (* [if (fixed) break;] *)
    else cheby_loop k p left' (S i_cheby) (count_time (snd r) dt)
  end.

(** src/Solver.cpp:839-877 *)
Fixpoint flow_loop {F} (k : kernels F) (p : parameters) (left : nat) (x : solver F) : outcome (solver F) :=
  match left with
  | O => Ok x
  | S left' => let! x := cheby_loop k p (n_cheby_flow p) 0 x in flow_loop k p left' x
  end.

(** src/Solver.cpp:834-886 *)
Definition update {F} (k : kernels F) (p : parameters) (x : solver F) : outcome (solver F) :=
  let! x := flow_loop k p (flow_iters p) x in Ok (count_iteration x).

(** [n] consecutive calls of [update] *)
Fixpoint updates {F} (k : kernels F) (p : parameters) (n : nat) (x : solver F) : outcome (solver F) :=
  match n with
  | O => Ok x
  | S n' => let! x := update k p x in updates k p n' x
  end.
