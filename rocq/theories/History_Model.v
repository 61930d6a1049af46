(** Model of [History_monitor] (include/History_monitor.hpp, src/History_monitor.cpp).
    [double] is [R], [int] is [Z] (iteration numbers) or [nat] (indices). *)
From Coq Require Import Reals ZArith List Bool.
From Verif Require Import Outcome ListUtil.
Import ListNotations.
Local Open Scope R_scope.

(** include/constants.hpp: [huge], the largest finite double *)
Definition huge : R := IZR (2 ^ 1024 - 2 ^ 971).

(** comparison of doubles *)
Definition Rltb (x y : R) : bool := if Rlt_dec x y then true else false.
Definition Rleb (x y : R) : bool := if Rle_dec x y then true else false.

(** include/History_monitor.hpp:18-26 *)
Record monitor : Type := mk_mon {
  m_samples : nat; m_start : nat; m_sz : nat; m_iterations : list Z; m_values : list R;
  m_win : R; m_threshold : R; m_min : R; m_max : R }.

(** src/History_monitor.cpp:7-11 *)
Definition new_monitor (window_size : R) (max_samples : nat) : monitor :=
  mk_mon max_samples 0 0 (repeat 0%Z max_samples) (repeat 0 max_samples) window_size 1 (- huge) huge.

(** src/History_monitor.cpp:20-23: the loop that forgets old samples; returns the new [_start], [_sz].
    [_sz] decremented below zero is reported as [Ub] (the code would go on reading stale samples). *)
Fixpoint forget (fuel samples start sz : nat) (iterations : list Z) (limit : R) : outcome (nat * nat) :=
  match fuel with
  | O => NoFuel
  | S fuel' =>
      if (samples <? sz)%nat || Rltb (IZR (nth start iterations 0%Z)) limit then
        match sz with
        | O => Ub
        | S sz' => forget fuel' samples ((start + 1) mod samples)%nat sz' iterations limit
        end
      else Ok (start, sz)
  end.

(** src/History_monitor.cpp:31; the factor is [std::pow(1/(1 - _win_sz), 1./_samples)] *)
Fixpoint raise_threshold (fuel : nat) (threshold factor : R) (iteration : Z) : outcome R :=
  match fuel with
  | O => NoFuel
  | S fuel' => if Rleb threshold (IZR iteration) then raise_threshold fuel' (threshold * factor) factor iteration
               else Ok threshold
  end.

(** src/History_monitor.cpp:31 *)
Definition factor (window_size : R) (samples : nat) : R := Rpower (1 / (1 - window_size)) (1 / INR samples).

(** src/History_monitor.cpp:13-32; a zero buffer size makes [%] undefined *)
Definition add_sample (fuel : nat) (m : monitor) (iteration : Z) (value : R) : outcome monitor :=
  if negb (m_sz m =? 0)%nat && Rltb (IZR iteration) (m_threshold m) then Ok m
  else if (m_samples m =? 0)%nat then Ub
  else
    let e := ((m_start m + m_sz m) mod m_samples m)%nat in
    let iterations := set_nth e iteration (m_iterations m) in
    let values := set_nth e value (m_values m) in
    let! (start, sz) := forget fuel (m_samples m) (m_start m) (m_sz m + 1)%nat iterations (IZR iteration * (1 - m_win m)) in
    let inds := map (fun offset => (start + offset) mod m_samples m)%nat (seq 0 sz) in
    let mn := fold_left (fun acc i => Rmin acc (nth i values 0)) inds huge in
    let mx := fold_left (fun acc i => Rmax acc (nth i values 0)) inds (- huge) in
    let! threshold := raise_threshold fuel (m_threshold m) (factor (m_win m) (m_samples m)) iteration in
    Ok (mk_mon (m_samples m) start sz iterations values (m_win m) threshold mn mx).

(** A sequence of calls of [add_sample] *)
Fixpoint add_samples (fuel : nat) (m : monitor) (l : list (Z * R)) : outcome monitor :=
  match l with
  | [] => Ok m
  | (iteration, value) :: l' => let! m' := add_sample fuel m iteration value in add_samples fuel m' l'
  end.
