(** Model of [Doublet], src/Spacetime_func.cpp:55-100, include/Spacetime_func.hpp: the flow around a cylinder.

    Simplifications:
    - double is R with exact arithmetic; the square root, the trigonometric functions and the power are the real ones;
      [std::pow] of a negative base gives not-a-number, which makes the whole state [None];
    - [freestream_state] has at least 3 entries; [pos] has [n_dim] entries;
    - the exponent [1/(heat_rat - 1)] is taken as positive where [std::pow] of 0 is evaluated (heat_rat > 1);
    - the center of the cylinder, where the code divides by zero, is excluded in the theorems. *)
From Coq Require Import Reals Arith.
From Verif Require Import Outcome.
Open Scope R_scope.

(** [std::atan2] *)
Definition atan2 (y x : R) : R :=
  if Rlt_dec 0 x then atan (y / x)
  else if Rlt_dec x 0 then (if Rle_dec 0 y then atan (y / x) + PI else atan (y / x) - PI)
  else if Rlt_dec 0 y then PI / 2 else if Rlt_dec y 0 then - (PI / 2) else 0.
(** [std::pow] with a positive exponent *)
Definition power (x a : R) : option R :=
  if Rlt_dec 0 x then Some (Rpower x a) else if Req_EM_T x 0 then Some 0 else None.

(** the members, include/Spacetime_func.hpp; [n_v] and [n_dim] as set by the constructor, src/Spacetime_func.cpp:55-58 *)
Record doublet : Type := { freestream : nat -> R; n_v : nat; location : nat -> R; radius : R; heat_rat : R }.
Definition n_dim (d : doublet) : nat := (n_v d - 2)%nat.

(** src/Spacetime_func.cpp:60-100 *)
Definition doublet_at (d : doublet) (pos : nat -> R) : outcome (option (nat -> R)) :=
  let free_mass := freestream d (n_v d - 2)%nat in
  let free_ener := freestream d (n_v d - 1)%nat in
  let freestream_veloc i := freestream d i / free_mass in
  let freestream_speed := sqrt (0 + freestream_veloc 0%nat * freestream_veloc 0%nat + freestream_veloc 1%nat * freestream_veloc 1%nat) in
  let angle_of_attack := atan2 (freestream_veloc 1%nat) (freestream_veloc 0%nat) in
  let pres := (heat_rat d - 1) * (free_ener - 1 / 2 * freestream_speed * freestream_speed * free_mass) in
  let stag_enth_per_mass := (free_ener + pres) / free_mass in
  let free_enth_per_mass := stag_enth_per_mass - 1 / 2 * freestream_speed * freestream_speed in
  if (n_dim d =? 1)%nat then Throw else
  let relative_pos i := pos i - location d i in
  let pos_magnitude := sqrt (relative_pos 0%nat * relative_pos 0%nat + relative_pos 1%nat * relative_pos 1%nat) in
  let pos_angle := atan2 (relative_pos 1%nat) (relative_pos 0%nat) in
  let radius_ratio := radius d * radius d / (pos_magnitude * pos_magnitude) in
  let veloc_radial := (1 - radius_ratio) * freestream_speed * cos (pos_angle - angle_of_attack) in
  let veloc_tangential := - (1 + radius_ratio) * freestream_speed * sin (pos_angle - angle_of_attack) in
  let veloc0 := veloc_radial * cos pos_angle - veloc_tangential * sin pos_angle in
  let veloc1 := veloc_radial * sin pos_angle + veloc_tangential * cos pos_angle in
  let kin_ener_per_mass := 1 / 2 * (veloc0 * veloc0 + veloc1 * veloc1) in
  let enth_per_mass := stag_enth_per_mass - kin_ener_per_mass in
  match power (enth_per_mass / free_enth_per_mass) (1 / (heat_rat d - 1)) with
  | None => Ok None
  | Some p =>
    let mass := free_mass * p in
    Ok (Some (fun i =>
      if (i =? n_v d - 1)%nat then mass * (enth_per_mass / heat_rat d + kin_ener_per_mass)
      else if (i =? n_v d - 2)%nat then mass
      else if (i =? 0)%nat then veloc0 * mass
      else if (i =? 1)%nat then veloc1 * mass
      else freestream d i))
  end.
