(** Models of the integer helpers and of the bisection root finder (include/math.hpp, src/math.cpp). *)
From Coq Require Import Reals ZArith List Bool Lia.
From Verif Require Import Outcome.
Import ListNotations.

(** ** Integers: C++ [int] with 32 bits; signed overflow is undefined behaviour. *)
Definition in_int (x : Z) : bool := ((- 2 ^ 31 <=? x) && (x <? 2 ^ 31))%Z.
Definition chk (x : Z) : outcome Z := if in_int x then Ok x else Ub.

(** include/math.hpp:33 (first loop, instance [number_t = int]) *)
Fixpoint pow_up (k : nat) (result base : Z) : outcome Z :=
  match k with
  | O => Ok result
  | S k' => let! r := chk (result * base) in pow_up k' r base
  end.
(** include/math.hpp:34 (second loop, [int]: truncating division, undefined for a zero divisor) *)
Fixpoint pow_down (k : nat) (result base : Z) : outcome Z :=
  match k with
  | O => Ok result
  | S k' => if (base =? 0)%Z then Ub else let! r := chk (Z.quot result base) in pow_down k' r base
  end.
(** include/math.hpp:29-36 with [number_t = int]; exactly one of the two loops does anything *)
Definition pow_int (base exponent : Z) : outcome Z :=
  let! r := pow_up (Z.to_nat exponent) 1 base in pow_down (Z.to_nat (- exponent)) r base.

(** include/math.hpp:29-36 with [number_t = double] (exact; division by zero excluded by the theorem) *)
Definition pow_real (base : R) (exponent : Z) : R :=
  Nat.iter (Z.to_nat (- exponent)) (fun result => result / base)%R (Nat.iter (Z.to_nat exponent) (fun result => result * base)%R 1%R).

(** include/math.hpp:47; [fuel] bounds the iterations *)
Fixpoint log_loop (fuel : nat) (compare result base arg : Z) : outcome Z :=
  match fuel with
  | O => NoFuel
  | S fuel' =>
      if (compare <? arg)%Z then
        let! result' := chk (result + 1) in let! compare' := chk (compare * base) in log_loop fuel' compare' result' base arg
      else Ok result
  end.
(** include/math.hpp:43-49 *)
Definition log_int (base arg : Z) : outcome Z := if (base <=? 1)%Z then Ok (-1)%Z else log_loop 33 1 0 base arg.

(** include/math.hpp:52-55 *)
Definition sign (condition : bool) : Z := (2 * Z.b2z condition - 1)%Z.

(** src/math.cpp:6-12 *)
Definition direction3 (n_dim i_dim : nat) (is_positive : bool) : list Z :=
  map (fun j => if (j =? i_dim)%nat then sign is_positive else 0%Z) (seq 0 n_dim).
(** src/math.cpp:14-17 *)
Definition direction (n_dim i_face : nat) : list Z := direction3 n_dim (i_face / 2) (negb (i_face mod 2 =? 0)%nat).

(** include/math.hpp:188-199; [stretch] has two entries (include/math.hpp:188), reading beyond them is undefined *)
Fixpoint stretched_loop (k n_dim ind : nat) (stretch : list bool) (stride stretched : nat) : outcome nat :=
  match k with
  | O => Ok stretched
  | S i_dim =>
      let! s := of_option_ub (nth_error stretch i_dim) in
      if s then stretched_loop i_dim n_dim ind stretch stride stretched
      else stretched_loop i_dim n_dim ind stretch (stride * 2) (stretched + ((ind / 2 ^ (n_dim - 2 - i_dim)) mod 2) * stride)
  end.
(** include/math.hpp:188-199: the loop variable runs from [n_dim - 2] down to 0 *)
Definition stretched_ind (n_dim ind : nat) (stretch : list bool) : outcome nat :=
  stretched_loop (n_dim - 1) n_dim ind stretch 1 0.

(** ** Bisection (include/math.hpp:92-112). [None] is a NaN. *)
Local Open Scope R_scope.
Definition nan_gt0 (x : option R) : bool := match x with Some v => if Rlt_dec 0 v then true else false | None => false end.
Definition nan_le0 (x : option R) : bool := match x with Some v => if Rle_dec v 0 then true else false | None => false end.
Definition nan_mult (x y : option R) : option R := match x, y with Some a, Some b => Some (a * b) | _, _ => None end.
Definition isnan (x : option R) : bool := match x with Some _ => false | None => true end.

Section Bisection.
  Context (func : R -> option R) (atol : R).

  (** include/math.hpp:100-108: one pass through the loop body; [(b0, b1, f0, f1)] are [bounds], [func_bounds] *)
  Definition bisect_step (b0 b1 : R) (f0 f1 : option R) : R * (R * R * option R * option R) :=
    let midpoint := (b0 + b1) / 2 in
    let mid_func := func midpoint in
    let i_repl := nan_le0 (nan_mult mid_func f0) in
    let i_repl := if isnan f0 then false else i_repl in
    let i_repl := if isnan f1 then true else i_repl in
    (midpoint, if i_repl then (b0, midpoint, f0, mid_func) else (midpoint, b1, mid_func, f1)).

  (** include/math.hpp:99-110 *)
  Fixpoint bisect_loop (fuel : nat) (b0 b1 : R) (f0 f1 : option R) : outcome R :=
    match fuel with
    | O => NoFuel
    | S fuel' =>
        let '(midpoint, (b0', b1', f0', f1')) := bisect_step b0 b1 f0 f1 in
        if Rlt_dec atol (b1' - b0') then bisect_loop fuel' b0' b1' f0' f1' else Ok midpoint
    end.

  (** include/math.hpp:92-112 *)
  Definition bisection (fuel : nat) (b0 b1 : R) : outcome R :=
    let f0 := func b0 in
    let f1 := func b1 in
    if nan_gt0 (nan_mult f0 f1) then Throw
    else if isnan f0 && isnan f1 then Throw
    else bisect_loop fuel b0 b1 f0 f1.
End Bisection.
