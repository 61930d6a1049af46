(** Model of [Stopwatch] (include/Stopwatch.hpp, src/Stopwatch.cpp).
    Clock readings are nanoseconds in [Z] and are passed to the calls; the accumulated time is an exact rational number
    of seconds (the code uses [double]). The call counter is an unbounded [Z]. *)
From Coq Require Import ZArith QArith List.
From Verif Require Import Outcome.
Import ListNotations.

(** include/Stopwatch.hpp:15-18 *)
Record stopwatch : Type := mk_sw { sw_n : Z; sw_t : Q; sw_r : bool; sw_started : Z }.

(** include/Stopwatch.hpp:15-18: default member initialisers ([time_started] is the clock's epoch) *)
Definition sw_new : stopwatch := mk_sw 0 0 false 0.

(** src/Stopwatch.cpp:7-12 *)
Definition sw_start (now : Z) (s : stopwatch) : outcome stopwatch :=
  if sw_r s then Throw else Ok (mk_sw (sw_n s) (sw_t s) true now).

(** src/Stopwatch.cpp:14-21 *)
Definition sw_pause (now : Z) (s : stopwatch) : outcome stopwatch :=
  if sw_r s then Ok (mk_sw (sw_n s + 1) (sw_t s + (now - sw_started s # 1000000000)) false (sw_started s)) else Throw.

(** src/Stopwatch.cpp:23-27 *)
Definition sw_reset (s : stopwatch) : stopwatch := mk_sw 0 0 (sw_r s) (sw_started s).

(** src/Stopwatch.cpp:44-51 *)
Definition sw_add (s other : stopwatch) : outcome stopwatch :=
  if negb (sw_r s) && negb (sw_r other) then Ok (mk_sw (sw_n s + sw_n other) (sw_t s + sw_t other) false 0) else Throw.

(** src/Stopwatch.cpp:53-61; the two atomic updates are done in sequence *)
Definition sw_add_assign (s other : stopwatch) : outcome stopwatch :=
  if negb (sw_r s) && negb (sw_r other) then Ok (mk_sw (sw_n s + sw_n other) (sw_t s + sw_t other) (sw_r s) (sw_started s))
  else Throw.

(** Calls on one stopwatch (src/Stopwatch.cpp:7-27) *)
Inductive sw_op : Type := Start (now : Z) | Pause (now : Z) | Reset.

(** src/Stopwatch.cpp:7-27 *)
Definition sw_call (s : stopwatch) (op : sw_op) : outcome stopwatch :=
  match op with Start now => sw_start now s | Pause now => sw_pause now s | Reset => Ok (sw_reset s) end.

(** A history of calls; a call that throws (src/Stopwatch.cpp:9, 17, before any change) leaves the stopwatch as it is. *)
Fixpoint sw_run (s : stopwatch) (h : list sw_op) : stopwatch :=
  match h with
  | [] => s
  | op :: h' => sw_run (match sw_call s op with Ok s' => s' | _ => s end) h'
  end.
