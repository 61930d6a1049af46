(** /repo/include/kernel_factory.hpp: run-time selection of a template instance. *)
From Coq Require Import ZArith Bool.
From Verif Require Import Outcome.
Local Open Scope Z_scope.

(** Kernel_lookup, kernel_factory.hpp:57-103. [lookup m d r nd rs] is what [Kernel_lookup<kernel, d, r>::get(nd, rs)] returns, with
    [m] = config::max_row_size: the template arguments of the instance. The class template is chosen by its arguments: the
    specialization for [1, 1], the one for row size 1, or the primary template. Each contains an instance with smaller
    arguments; the recursion happens at compile time, [NoFuel] stands for a recursion that does not end. *)
Fixpoint lookup (fuel : nat) (m d r nd rs : Z) : outcome (Z * Z) :=
  match fuel with
  | O => NoFuel
  | S fuel =>
      if (d =? 1) && (r =? 1) then Ok (1, 1)
      else if r =? 1 then if nd =? d then Ok (d, 1) else lookup fuel m (d - 1) m nd rs
      else if (nd =? d) && (rs =? r) then Ok (d, r) else lookup fuel m d (r - 1) nd rs
  end.

(** kernel_factory, kernel_factory.hpp:111-119 *)
Definition kernel_factory (m nd rs : Z) : outcome (Z * Z) :=
  if (nd <? 1) || (nd >? 3) || (rs <? 2) || (rs >? m) then Throw
  else lookup (Z.to_nat (3 * m)) m 3 m nd rs.
